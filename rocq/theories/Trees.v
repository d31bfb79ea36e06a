(* Trees.v : model of folx/tree_utils.py.  A pytree is its tree definition and the list of its leaves (jax.tree_util.tree_flatten);
   tree_map on several trees requires equal tree definitions and applies the function leaf by leaf.  Exceptions are None. *)
From Verif Require Export VmapFacts ApiFacts.
Set Implicit Arguments.

(* jax.tree_util: tree definition and leaves *)
Record pytree (T X : Type) := Tree { tdef : T; leaves : list X }.
Arguments Tree {T X}.

Section Trees.
Context {T : Type} (teq : T -> T -> bool) {A : Type} {RA : CRing A}.
Add Ring Aring_Trees : (@rth A RA).
Notation tree := (pytree T (nd A)).
(* a default array, never read in bounds *)
Definition nd_ : nd A := Nd [] (fun _ => r0).

(* ---- numpy operations ---- *)
(* a `op` b with broadcasting *)
Definition binop (f : A -> A -> A) (a b : nd A) : option (nd A) :=
  let* s := bshape2 (sh a) (sh b) in Some (Nd s (fun p => f (at_ a (bproj (sh a) p)) (at_ b (bproj (sh b) p)))).
(* lax.mul: equal shapes only *)
Definition lax_mul (a b : nd A) : option (nd A) :=
  if list_eq_dec Nat.eq_dec (sh a) (sh b) then Some (ndmap2 rmul a b) else None.
(* jnp.sum, and jnp.einsum('...,...->', x, x) *)
Definition asum (a : nd A) : A := sumL (flat a) (fun x => x).
(* jnp.einsum('...,...->', x, x) *)
Definition sqsum (a : nd A) : A := sumL (allix (sh a)) (fun i => rmul (at_ a i) (at_ a i)).
(* x[lo:hi] along axis d with numpy's clipping *)
Definition cut (d lo hi : nat) (a : nd A) : nd A :=
  let n := nth d (sh a) 0 in
  Nd (insn d (Nat.min hi n - Nat.min lo n) (dropn d (sh a))) (fun i => at_ a (insn d (lo + nth d i 0) (dropn d i))).
(* jnp.concatenate(xs, axis): the arrays agree outside the axis *)
Definition concat_axis (ax : Z) (xs : list (nd A)) : option (nd A) :=
  match xs with
  | [] => None
  | x :: _ =>
      let* d := axis (ndim x) ax in
      if forallb (fun y => Nat.eqb (ndim y) (ndim x) && if list_eq_dec Nat.eq_dec (dropn d (sh y)) (dropn d (sh x)) then true else false) xs
      then Some (from_front d (concat0 r0 (map (to_front d) xs))) else None
  end.
(* jnp.take(x, idx, axis) for an index array idx (negative indices count from the end); the out-of-range case, which fills with NaN, is
   not modelled (None) *)
Definition wrap (n : nat) (z : Z) : option nat := axis n z.
(* jnp.take(x, idx, axis) *)
Definition jtake (idx : nd Z) (ax : Z) (x : nd A) : option (nd A) :=
  let* d := axis (ndim x) ax in
  let n := nth d (sh x) 0 in
  if forallb (fun i => match wrap n (at_ idx i) with Some _ => true | None => false end) (allix (sh idx))
  then Some (Nd (firstn d (sh x) ++ sh idx ++ skipn (S d) (sh x))
                (fun i => let q := firstn (ndim idx) (skipn d i) in
                          match wrap n (at_ idx q) with
                          | Some k => at_ x (firstn d i ++ k :: skipn (d + ndim idx) i)
                          | None => r0 end))
  else None.

(* ---- jax.tree_util ---- *)
Definition tree_map1 {X Y} (f : X -> option Y) (t : pytree T X) : option (pytree T Y) :=
  let* l := seqo (map f (leaves t)) in Some (Tree (tdef t) l).
(* jax.tree_util.tree_map on two trees *)
Definition tree_map2 {X Y W} (f : X -> Y -> option W) (t : pytree T X) (u : pytree T Y) : option (pytree T W) :=
  if teq (tdef t) (tdef u) && Nat.eqb (length (leaves t)) (length (leaves u)) then
    let* l := seqo (map2 f (leaves t) (leaves u)) in Some (Tree (tdef t) l) else None.
(* tree_map(lambda *args: ..., *trees) *)
Definition tree_mapn {X Y} (f : list X -> option Y) (d : X) (ts : list (pytree T X)) : option (pytree T Y) :=
  match ts with
  | [] => None
  | t :: _ => if forallb (fun u => teq (tdef t) (tdef u) && Nat.eqb (length (leaves t)) (length (leaves u))) ts then
      let* l := seqo (map (fun k => f (map (fun u => nth k (leaves u) d) ts)) (seq 0 (length (leaves t)))) in Some (Tree (tdef t) l)
      else None
  end.
(* functools.reduce without an initial value: raises on an empty tree *)
Definition tree_reduce (t : pytree T A) : option A :=
  match leaves t with [] => None | x :: l => Some (fold_left radd l x) end.

(* ---- tree_utils.py ---- *)
(* the second operand of tree_mul and tree_add: an array or a number (isinstance(x, ArrayLike); a number is an array without axes), or a tree *)
Inductive operand := OArr (x : nd A) | OTree (u : tree).
(* tree_utils.py:11-12 tree_scale *)
Definition tree_scale (t : tree) (x : nd A) : option tree := tree_map1 (fun a => binop rmul a x) t.
(* tree_utils.py:15-18 tree_mul *)
Definition tree_mul (t : tree) (o : operand) : option tree := match o with OArr x => tree_scale t x | OTree u => tree_map2 (binop rmul) t u end.
(* tree_utils.py:21-22 tree_shift *)
Definition tree_shift (t : tree) (x : nd A) : option tree := tree_map1 (fun a => binop radd a x) t.
(* tree_utils.py:25-28 tree_add *)
Definition tree_add (t : tree) (o : operand) : option tree := match o with OArr x => tree_shift t x | OTree u => tree_map2 (binop radd) t u end.
(* tree_utils.py:31-32 tree_sub *)
Definition tree_sub (t u : tree) : option tree := tree_map2 (binop rsub) t u.
(* tree_utils.py:35-38 tree_dot *)
Definition tree_dot (a b : tree) : option A :=
  let* m := tree_map2 lax_mul a b in let* s := tree_map1 (fun x => Some (asum x)) m in tree_reduce s.
(* tree_utils.py:41-42 tree_sum *)
Definition tree_sum (t : tree) : option A := let* s := tree_map1 (fun x => Some (asum x)) t in tree_reduce s.
(* tree_utils.py:45-48 tree_squared_norm *)
Definition tree_squared_norm (t : tree) : option A := let* s := tree_map1 (fun x => Some (sqsum x)) t in tree_reduce s.
(* tree_utils.py:51-52 tree_concat *)
Definition tree_concat (ts : list tree) (ax : Z) : option tree := tree_mapn (concat_axis ax) nd_ ts.
(* tree_utils.py:55-62 tree_split, sizes >= 0; slicing a scalar raises.  The lambda reads idx and s when it is applied, which is before the loop goes on. *)
Definition cut0 (lo hi : nat) (a : nd A) : option (nd A) := match sh a with [] => None | _ => Some (cut 0 lo hi a) end.
(* tree_utils.py:55-62: x[idx:] *)
Definition cut0_end (lo : nat) (a : nd A) : option (nd A) := match sh a with [] => None | n :: _ => Some (cut 0 lo n a) end.
(* tree_utils.py:55-62: the loop *)
Fixpoint tree_split_from (idx : nat) (t : tree) (sizes : list nat) : option (list tree) :=
  match sizes with
  | [] => let* r := tree_map1 (cut0_end idx) t in Some [r]
  | s :: sizes' => let* p := tree_map1 (cut0 idx (idx + s)) t in let* r := tree_split_from (idx + s) t sizes' in Some (p :: r)
  end.
(* tree_utils.py:55-62 tree_split *)
Definition tree_split (t : tree) (sizes : list nat) : option (list tree) := tree_split_from 0 t sizes.
(* tree_utils.py:65-66 tree_idx with an integer index: x[k] *)
Definition tree_idx (t : tree) (k : Z) : option tree :=
  tree_map1 (fun x => match sh x with [] => None | n :: _ => let* j := axis n k in Some (row x j) end) t.
(* tree_utils.py:69-70 tree_expand: jnp.expand_dims(x, axis), one axis *)
Definition tree_expand (t : tree) (ax : Z) : option tree :=
  tree_map1 (fun x => let* d := axis (S (ndim x)) ax in Some (Nd (insn d 1 (sh x)) (fun i => at_ x (dropn d i)))) t.
(* tree_utils.py:73-82 tree_take: a slice lo:hi (0 <= lo, hi) or an index array *)
Inductive sel := Slice (lo hi : nat) | Indices (idx : nd Z).
(* tree_utils.py:73-82 tree_take *)
Definition tree_take (t : tree) (s : sel) (ax : Z) : option tree :=
  tree_map1 (fun x => match s with
                      | Slice lo hi => let* d := axis (ndim x) ax in Some (cut d lo hi x)   (* l.76-79 *)
                      | Indices idx => jtake idx ax x                                       (* l.80 *)
                      end) t.

(* ---- specification: the vector of a tree (all leaves, each in row-major order, one after the other) ---- *)
Definition vec (t : tree) : list A := concat (map (@flat A) (leaves t)).
(* specification: inner product of vectors *)
Definition dot (u v : list A) : A := fold_right radd r0 (map2 rmul u v).
(* specification: trees with the same structure and shapes *)
Definition same_form (t u : tree) : Prop := teq (tdef t) (tdef u) = true /\ map (@sh A) (leaves t) = map (@sh A) (leaves u).
(* specification: equality of trees of arrays *)
Definition tree_eqa (t u : tree) : Prop := tdef t = tdef u /\ Forall2 eqa (leaves t) (leaves u).

(* ---- facts ---- *)
Lemma map2_app {X Y W} (f : X -> Y -> W) l1 m1 : forall l2 m2, length l1 = length m1 -> map2 f (l1 ++ l2) (m1 ++ m2) = map2 f l1 m1 ++ map2 f l2 m2.
Proof. revert m1. induction l1 as [|x l1 IH]; intros [|y m1] l2 m2 H; cbn in *; try lia; [reflexivity|]. rewrite IH by lia. reflexivity. Qed.
Lemma map2_map {X Y W V V'} (f : X -> Y -> W) (g : V -> X) (h : V' -> Y) l : forall m, map2 f (map g l) (map h m) = map2 (fun a b => f (g a) (h b)) l m.
Proof. induction l as [|x l IH]; intros [|y m]; cbn; auto. rewrite IH. reflexivity. Qed.
Lemma map2_diag {X W} (f : X -> X -> W) l : map2 f l l = map (fun x => f x x) l.
Proof. induction l as [|x l IH]; cbn; [reflexivity|]. rewrite IH. reflexivity. Qed.
Lemma flat_binop f (a b c : nd A) : sh a = sh b -> binop f a b = Some c -> flat c = map2 f (flat a) (flat b) /\ sh c = sh a.
Proof.
  intros Hs Hb. unfold binop in Hb. rewrite <- Hs, bshape2_refl in Hb. cbn in Hb. injection Hb as <-. split; [|reflexivity]. unfold flat. cbn [sh at_]. rewrite <- Hs, map2_map, map2_diag.
  apply map_ext_in. intros p Hp. apply allix_spec in Hp. rewrite !bproj_same by exact Hp. reflexivity.
Qed.
Lemma binop_some f (a b : nd A) : sh a = sh b -> exists c, binop f a b = Some c.
Proof. intros Hs. unfold binop. rewrite <- Hs, bshape2_refl. cbn. eexists. reflexivity. Qed.
Lemma tree_map2_vec f (t u : tree) : same_form t u -> exists r, tree_map2 (binop f) t u = Some r /\ tdef r = tdef t /\ map (@sh A) (leaves r) = map (@sh A) (leaves t) /\ vec r = map2 f (vec t) (vec u).
Proof.
  intros [Ht Hs]. destruct t as [td l], u as [td' m]. unfold tree_map2. cbn [tdef leaves] in *. rewrite Ht.
  assert (HL : length l = length m) by (apply (f_equal (@length _)) in Hs; rewrite !map_length in Hs; exact Hs). rewrite HL, Nat.eqb_refl. cbn [andb].
  cut (exists r, seqo (map2 (binop f) l m) = Some r /\ map (@sh A) r = map (@sh A) l /\ concat (map (@flat A) r) = map2 f (concat (map (@flat A) l)) (concat (map (@flat A) m))).
  { intros (r & E & E1 & E2). rewrite E. cbn. exists (Tree td r). auto. }
  clear HL Ht. revert m Hs. induction l as [|a l IH]; intros [|b m] Hs; cbn [map] in Hs; try discriminate Hs.
  - exists []. auto.
  - injection Hs as Hs Hss. destruct (binop_some f _ _ Hs) as [c Hc]. destruct (IH _ Hss) as (r & E & E1 & E2). destruct (@flat_binop f a b c Hs Hc) as [F1 F2].
    exists (c :: r). cbn [map2 seqo]. rewrite Hc, E. cbn. split; [reflexivity|]. rewrite F1, F2, E1, E2. split; [reflexivity|]. rewrite map2_app; [reflexivity|]. unfold flat. rewrite !map_length, Hs. reflexivity.
Qed.
Lemma bproj_nil p : bproj [] p = [].
Proof. reflexivity. Qed.
Lemma bshape2_nil_r s : bshape2 s [] = Some s.
Proof. unfold bshape2. cbn [rev]. rewrite bsr_nil_r. cbn. rewrite rev_involutive. reflexivity. Qed.
Lemma tree_map1_vec f (t : tree) x : exists r, tree_map1 (fun a => binop f a (Nd [] (fun _ => x))) t = Some r /\ tdef r = tdef t /\ map (@sh A) (leaves r) = map (@sh A) (leaves t) /\ vec r = map (fun y => f y x) (vec t).
Proof.
  destruct t as [td l]. unfold tree_map1. cbn [tdef leaves].
  cut (exists r, seqo (map (fun a => binop f a (Nd [] (fun _ => x))) l) = Some r /\ map (@sh A) r = map (@sh A) l /\ concat (map (@flat A) r) = map (fun y => f y x) (concat (map (@flat A) l))).
  { intros (r & E & E1 & E2). rewrite E. cbn. exists (Tree td r). auto. }
  induction l as [|a l IH].
  - exists []. auto.
  - destruct IH as (r & E & E1 & E2). eexists (_ :: r). cbn [map seqo]. unfold binop at 1. cbn [sh]. rewrite bshape2_nil_r. cbn [bind]. rewrite E. cbn [bind]. split; [reflexivity|]. cbn [map sh concat]. rewrite E1, E2. split; [reflexivity|]. rewrite map_app. f_equal.
    unfold flat. cbn [sh at_]. rewrite map_map. apply map_ext_in. intros p Hp. apply allix_spec in Hp. rewrite bproj_same by exact Hp. reflexivity.
Qed.
Lemma fold_left_radd (l : list A) : forall x, fold_left radd l x = radd x (fold_right radd r0 l).
Proof. induction l as [|y l IH]; intros x; cbn; [ring|]. rewrite IH. ring. Qed.
Lemma reduce_sum (t : pytree T A) : leaves t <> [] -> tree_reduce t = Some (fold_right radd r0 (leaves t)).
Proof. unfold tree_reduce. destruct (leaves t) as [|x l]; [congruence|]. intros _. rewrite fold_left_radd. reflexivity. Qed.
Lemma fold_right_app_radd (l m : list A) : fold_right radd r0 (l ++ m) = radd (fold_right radd r0 l) (fold_right radd r0 m).
Proof. induction l as [|x l IH]; cbn; [ring|]. rewrite IH. ring. Qed.
Lemma sumL_fold {X} (l : list X) (f : X -> A) : sumL l f = fold_right radd r0 (map f l).
Proof. induction l as [|x l IH]; cbn; [reflexivity|]. rewrite IH. reflexivity. Qed.
Lemma fold_concat {X} (g : X -> list A) (l : list X) : fold_right radd r0 (map (fun x => fold_right radd r0 (g x)) l) = fold_right radd r0 (concat (map g l)).
Proof. induction l as [|x l IH]; cbn; [reflexivity|]. rewrite fold_right_app_radd, IH. reflexivity. Qed.
Lemma seqo_some {X Y} (g : X -> Y) l : seqo (map (fun x => Some (g x)) l) = Some (map g l).
Proof. induction l as [|x l IH]; cbn; [reflexivity|]. rewrite IH. reflexivity. Qed.

Lemma split_from_some idx (t : tree) sizes : (forall x, In x (leaves t) -> sh x <> []) -> tree_split_from idx t sizes =
  Some ((fix go i l := match l with [] => [Tree (tdef t) (map (fun a => cut 0 i (hd 0 (sh a)) a) (leaves t))]
                       | s :: l' => Tree (tdef t) (map (cut 0 i (i + s)) (leaves t)) :: go (i + s) l' end) idx sizes).
Proof.
  intros Hx. revert idx. induction sizes as [|s sizes IH]; intros idx.
  - cbn [tree_split_from]. unfold tree_map1. replace (map (cut0_end idx) (leaves t)) with (map (fun a => Some (cut 0 idx (hd 0 (sh a)) a)) (leaves t)).
    + rewrite seqo_some. reflexivity.
    + apply map_ext_in. intros a Ha. specialize (Hx a Ha). unfold cut0_end. destruct (sh a); [congruence|reflexivity].
  - cbn [tree_split_from]. unfold tree_map1. replace (map (cut0 idx (idx + s)) (leaves t)) with (map (fun a => Some (cut 0 idx (idx + s) a)) (leaves t)).
    + rewrite seqo_some. cbn [bind]. rewrite IH. reflexivity.
    + apply map_ext_in. intros a Ha. specialize (Hx a Ha). unfold cut0. destruct (sh a); [congruence|reflexivity].
Qed.
(* the bounds of the k-th piece *)
Definition lo_of (sizes : list nat) (k : nat) : nat := list_sum (firstn k sizes).
(* specification: the end of part k of a split *)
Definition hi_of (sizes : list nat) (k n : nat) : nat := if (k <? length sizes) then list_sum (firstn (S k) sizes) else n.
Lemma split_nth (t : tree) sizes d : (forall x, In x (leaves t) -> sh x <> []) -> exists ps, tree_split t sizes = Some ps /\ length ps = S (length sizes) /\
  forall k, k <= length sizes -> nth k ps d = Tree (tdef t) (map (fun a => cut 0 (lo_of sizes k) (hi_of sizes k (hd 0 (sh a))) a) (leaves t)).
Proof.
  intros Hx. unfold tree_split. rewrite split_from_some by exact Hx. eexists. split; [reflexivity|].
  assert (G : forall idx sz, let ps := (fix go i l := match l with [] => [Tree (tdef t) (map (fun a => cut 0 i (hd 0 (sh a)) a) (leaves t))]
                       | s :: l' => Tree (tdef t) (map (cut 0 i (i + s)) (leaves t)) :: go (i + s) l' end) idx sz in
     length ps = S (length sz) /\ forall k, k <= length sz -> nth k ps d = Tree (tdef t) (map (fun a => cut 0 (idx + lo_of sz k) (if k <? length sz then idx + list_sum (firstn (S k) sz) else hd 0 (sh a)) a) (leaves t))).
  { intros idx sz. revert idx. induction sz as [|s sz IH]; intros idx.
    - split; [reflexivity|]. intros k Hk. cbn in Hk. assert (k = 0) by lia. subst k. cbn [nth]. unfold lo_of. cbn. f_equal. apply map_ext. intros a. rewrite Nat.add_0_r. reflexivity.
    - destruct (IH (idx + s)) as [H1 H2]. split; [cbn [length]; f_equal; exact H1|]. intros [|k] Hk.
      + cbn [nth]. f_equal. apply map_ext. intros a. unfold lo_of. cbn. rewrite !Nat.add_0_r. reflexivity.
      + cbn [length] in Hk. cbn [nth]. rewrite H2 by lia. f_equal. apply map_ext. intros a. unfold lo_of. cbn [firstn length list_sum fold_right].
        change (S k <? S (length sz)) with (k <? length sz). fold (list_sum (firstn k sz)). f_equal; [lia|]. destruct (k <? length sz); [|reflexivity].
        change (fold_right Init.Nat.add 0 (firstn (S k) sz)) with (list_sum (firstn (S k) sz)). lia. }
  destruct (G 0 sizes) as [G1 G2]. split; [exact G1|]. intros k Hk. rewrite (G2 k Hk). reflexivity.
Qed.
End Trees.
