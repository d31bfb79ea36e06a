(* Props_Trees.v : C44, the pytree helpers of folx/tree_utils.py *)
From Verif Require Export Trees BcastFacts.
Set Implicit Arguments.

Section Facts.
Context {T : Type} (teq : T -> T -> bool) (teq_refl : forall t, teq t t = true) {A : Type} {RA : CRing A}.
Notation tree := (pytree T (nd A)).
Fixpoint pieces (i : nat) (l : list nat) (a : nd A) : list (nd A) :=
  match l with [] => [cut 0 i (hd 0 (sh a)) a] | s :: l' => cut 0 i (i + s) a :: pieces (i + s) l' a end.
Lemma cut_rows lo hi (a : nd A) n s : sh a = n :: s -> rows (cut 0 lo hi a) = Nat.min hi n - Nat.min lo n.
Proof. intros H. unfold rows, cut. cbn [sh]. rewrite H. reflexivity. Qed.
Lemma pieces_total l (a : nd A) n s : sh a = n :: s -> forall i, list_sum (map rows (pieces i l a)) = n - Nat.min i n.
Proof.
  intros H. induction l as [|x l IH]; intros i; cbn [pieces map list_sum fold_right].
  - rewrite (cut_rows _ _ _ H), H. cbn. lia.
  - rewrite (cut_rows _ _ _ H). unfold list_sum in IH. rewrite IH. lia.
Qed.
Lemma pieces_at l (a : nd A) n s d : sh a = n :: s -> forall i r p, i + r < n -> cat_at d (pieces i l a) r p = at_ a (i + r :: p).
Proof.
  intros H. induction l as [|x l IH]; intros i r p Hr; cbn [pieces cat_at]; rewrite (cut_rows _ _ _ H).
  - rewrite H. cbn [hd]. destruct (Nat.ltb_spec r (Nat.min n n - Nat.min i n)); [|lia]. reflexivity.
  - destruct (Nat.ltb_spec r (Nat.min (i + x) n - Nat.min i n)); [reflexivity|]. rewrite IH by lia. f_equal. f_equal. lia.
Qed.
Lemma pieces_tl l (a : nd A) : forall i y, In y (pieces i l a) -> sh y = rows y :: tl (sh a).
Proof. induction l as [|x l IH]; intros i y Hy; cbn [pieces In] in Hy; destruct Hy as [<-|Hy]; try contradiction; try (unfold rows, cut; cbn; destruct (sh a); reflexivity). eapply IH; eauto. Qed.
Lemma pieces_concat l (a : nd A) : sh a <> [] -> exists b, concat_axis 0 (pieces 0 l a) = Some b /\ eqa b a.
Proof.
  intros Ha. destruct (sh a) as [|n s] eqn:Es; [congruence|]. unfold concat_axis. assert (HP := pieces_tl l a). destruct (pieces 0 l a) as [|x xs] eqn:Ep; [destruct l; discriminate Ep|].
  assert (Hx : forall y, In y (x :: xs) -> sh y = rows y :: s) by (intros y Hy; rewrite <- Ep in Hy; specialize (HP 0 y Hy); rewrite Es in HP; exact HP).
  pose proof (Hx x (or_introl eq_refl)) as Sx. assert (EA : axis (ndim x) 0 = Some 0).
  { unfold axis, ndim. rewrite Sx. cbn [length]. destruct (Z.leb_spec (- Z.of_nat (S (length s))) 0); [|lia]. destruct (Z.ltb_spec 0 (Z.of_nat (S (length s)))); [|lia]. reflexivity. }
  rewrite EA. cbn [bind]. match goal with |- context[if ?c then _ else _] => assert (Ec : c = true) end.
  { apply forallb_forall. intros y Hy. unfold ndim. rewrite (Hx y Hy), Sx. cbn [length dropn]. rewrite Nat.eqb_refl. destruct list_eq_dec; [reflexivity|congruence]. }
  rewrite Ec. eexists. split; [reflexivity|]. rewrite <- Ep.
  assert (EM : map (to_front 0) (pieces 0 l a) = map (fun y => Nd (rows y :: s) (fun i => at_ y (hd 0 i :: tl i))) (pieces 0 l a)).
  { apply map_ext_in. intros y Hy. rewrite Ep in Hy. unfold to_front. rewrite (Hx y Hy). cbn [nth dropn insn]. reflexivity. }
  rewrite EM. clear EM Ec EA. set (g := fun y : nd A => Nd (rows y :: s) (fun i => at_ y (hd 0 i :: tl i))).
  assert (Er : map rows (map g (pieces 0 l a)) = map rows (pieces 0 l a)) by (rewrite map_map; reflexivity).
  assert (Eat : forall ys r p, cat_at r0 (map g ys) r p = cat_at r0 ys r p).
  { induction ys as [|y ys IH]; intros r p; cbn [map cat_at]; [reflexivity|]. change (rows (g y)) with (rows y). rewrite IH. reflexivity. }
  assert (Eh : tl (sh (hd (Nd [] (fun _ => r0)) (map g (pieces 0 l a)))) = s) by (rewrite Ep; reflexivity).
  unfold from_front, concat0. cbn [sh at_ hd tl insn]. rewrite Er, (pieces_total l a Es 0), Eh. split; cbn [sh at_ insn].
  - rewrite Es. f_equal. lia.
  - intros [|r p] Hi; [inversion Hi|]. apply inb_cons in Hi. destruct Hi as [Hr Hp]. cbn [nth dropn hd tl]. rewrite Eat. rewrite (pieces_at l a _ Es) by (cbn in *; lia). reflexivity.
Qed.
Lemma nth_pieces l (a : nd A) d : forall i k, k <= length l -> nth k (pieces i l a) d = cut 0 (i + lo_of l k) (if k <? length l then i + list_sum (firstn (S k) l) else hd 0 (sh a)) a.
Proof.
  induction l as [|s l IH]; intros i k Hk; cbn [length] in Hk.
  - assert (k = 0) by lia. subst k. cbn. unfold lo_of. cbn. rewrite Nat.add_0_r. reflexivity.
  - destruct k as [|k]; cbn [pieces nth].
    + unfold lo_of. cbn. rewrite !Nat.add_0_r. reflexivity.
    + rewrite IH by lia. unfold lo_of. cbn [firstn length list_sum fold_right]. change (S k <? S (length l)) with (k <? length l). fold (list_sum (firstn k l)). f_equal; [lia|].
      destruct (k <? length l); [|reflexivity]. change (fold_right Init.Nat.add 0 (firstn (S k) l)) with (list_sum (firstn (S k) l)). lia.
Qed.
Lemma pieces_length l (a : nd A) : forall i, length (pieces i l a) = S (length l).
Proof. induction l as [|s l IH]; intros i; cbn; [reflexivity|]. rewrite IH. reflexivity. Qed.
End Facts.

(* C44, split and concatenate: piece k holds the rows lo <= r < hi of every leaf (lo, hi the partial sums of the sizes, clipped to the
   number of rows; the last piece takes the rest), and concatenating the pieces along axis 0 gives back every leaf. *)
Theorem C44_split_pieces : forall (T A : Type) (RA : CRing A) (t : pytree T (nd A)) (sizes : list nat) (d : pytree T (nd A)) (a0 : nd A),
  (forall x, In x (leaves t) -> sh x <> []) ->
  exists ps, tree_split t sizes = Some ps /\ length ps = S (length sizes) /\
  forall k j, k <= length sizes -> j < length (leaves t) ->
    let x := nth j (leaves t) a0 in let y := nth j (leaves (nth k ps d)) a0 in
    let lo := list_sum (firstn k sizes) in let hi := if k <? length sizes then list_sum (firstn (S k) sizes) else rows x in
    tdef (nth k ps d) = tdef t /\ length (leaves (nth k ps d)) = length (leaves t) /\
    sh y = Nat.min hi (rows x) - Nat.min lo (rows x) :: tl (sh x) /\
    forall r p, at_ y (r :: p) = at_ x (lo + r :: p).
Proof.
  intros T A RA t sizes d a0 Hx. destruct (@Trees.split_nth T A t sizes d Hx) as (ps & E & EL & EN). exists ps. split; [exact E|]. split; [exact EL|].
  intros k j Hk Hj x y lo hi. subst y. rewrite (EN k Hk). cbn [tdef leaves]. split; [reflexivity|]. split; [apply map_length|]. rewrite nth_map_in with (dx := a0) by exact Hj. fold x.
  assert (HX : sh x <> []) by (apply Hx; apply nth_In; exact Hj). destruct (sh x) as [|n s] eqn:Es; [congruence|]. unfold hi, lo, hi_of, lo_of, rows, cut. cbn [sh at_]. rewrite Es. cbn [hd nth dropn insn tl]. split; [reflexivity|]. intros r p. reflexivity.
Qed.
Theorem C44_split_concat : forall (T A : Type) (RA : CRing A) (teq : T -> T -> bool) (t : pytree T (nd A)) (sizes : list nat),
  (forall td, teq td td = true) -> (forall x, In x (leaves t) -> sh x <> []) ->
  exists ps r, tree_split t sizes = Some ps /\ tree_concat teq ps 0 = Some r /\ tree_eqa r t.
Proof.
  intros T A RA teq t sizes Hr Hx. destruct (@Trees.split_nth T A t sizes t Hx) as (ps & E & EL & EN). exists ps.
  assert (EP : forall k, k < length (leaves t) -> map (fun u => nth k (leaves u) nd_) ps = pieces 0 sizes (nth k (leaves t) nd_)).
  { intros k Hk. apply nth_ext with (d := nd_) (d' := nd_); [rewrite map_length, pieces_length; exact EL|]. rewrite map_length, EL. intros j Hj.
    rewrite nth_map_in with (dx := t) by lia. rewrite (EN j ltac:(lia)). cbn [leaves]. rewrite nth_map_in with (dx := nd_) by exact Hk. rewrite nth_pieces by lia. reflexivity. }
  assert (ES : forall ks, (forall k, In k ks -> k < length (leaves t)) -> exists l, seqo (map (fun k => concat_axis 0 (map (fun u => nth k (leaves u) nd_) ps)) ks) = Some l /\ Forall2 eqa l (map (fun k => nth k (leaves t) nd_) ks)).
  { induction ks as [|k ks IH]; intros Hk; [exists []; split; [reflexivity|constructor]|]. destruct IH as (l & E1 & E2); [intros; apply Hk; right; auto|].
    assert (Hk0 : k < length (leaves t)) by (apply Hk; left; reflexivity).
    destruct (@pieces_concat A RA sizes (nth k (leaves t) nd_)) as (b & B1 & B2); [apply Hx, nth_In; exact Hk0|].
    exists (b :: l). cbn [map seqo]. rewrite (EP k Hk0), B1, E1. cbn. split; [reflexivity|]. constructor; assumption. }
  destruct (ES (seq 0 (length (leaves t)))) as (l & E1 & E2); [intros k Hk; apply in_seq in Hk; lia|].
  assert (HF : forall u, In u ps -> tdef u = tdef t /\ length (leaves u) = length (leaves t)).
  { intros u Hu. apply In_nth with (d := t) in Hu. destruct Hu as (k & Hk & <-). rewrite EN by lia. cbn. rewrite map_length. auto. }
  exists (Tree (tdef t) l). split; [exact E|]. split.
  - unfold tree_concat, tree_mapn. destruct ps as [|p0 ps']; [cbn in EL; lia|]. destruct (HF p0 (or_introl eq_refl)) as [F1 F2]. rewrite F1, F2.
    match goal with |- context[if ?c then _ else _] => assert (Ec : c = true) end.
    { apply forallb_forall. intros u Hu. destruct (HF u Hu) as [-> ->]. rewrite Hr, Nat.eqb_refl. reflexivity. }
    rewrite Ec, E1. reflexivity.
  - split; [reflexivity|]. cbn [leaves]. assert (EQ : map (fun k => nth k (leaves t) nd_) (seq 0 (length (leaves t))) = leaves t).
    { apply nth_ext with (d := nd_) (d' := nd_); [rewrite map_length, seq_length; reflexivity|]. rewrite map_length, seq_length. intros k Hk. rewrite nth_map_in with (dx := 0) by (rewrite seq_length; exact Hk). rewrite seq_nth by exact Hk. reflexivity. }
    rewrite EQ in E2. exact E2.
Qed.
Print Assumptions C44_split_pieces.
Print Assumptions C44_split_concat.

(* C44, arithmetic: on trees of the same form the helpers are the operations on the vector of all leaf entries.  tree_dot, tree_sum and
   tree_squared_norm raise on a tree without leaves. *)
Theorem C44_arithmetic : forall (T A : Type) (RA : CRing A) (teq : T -> T -> bool) (t u : pytree T (nd A)) (x : A), same_form teq t u ->
  (exists r, tree_add teq t (OTree u) = Some r /\ tdef r = tdef t /\ map (@sh A) (leaves r) = map (@sh A) (leaves t) /\ vec r = map2 radd (vec t) (vec u)) /\
  (exists r, tree_sub teq t u = Some r /\ tdef r = tdef t /\ map (@sh A) (leaves r) = map (@sh A) (leaves t) /\ vec r = map2 rsub (vec t) (vec u)) /\
  (exists r, tree_mul teq t (OTree u) = Some r /\ tdef r = tdef t /\ map (@sh A) (leaves r) = map (@sh A) (leaves t) /\ vec r = map2 rmul (vec t) (vec u)) /\
  (exists r, tree_mul teq t (OArr (Nd [] (fun _ => x))) = Some r /\ tree_scale t (Nd [] (fun _ => x)) = Some r /\ tdef r = tdef t /\ map (@sh A) (leaves r) = map (@sh A) (leaves t) /\ vec r = map (fun y => rmul y x) (vec t)) /\
  (exists r, tree_add teq t (OArr (Nd [] (fun _ => x))) = Some r /\ tree_shift t (Nd [] (fun _ => x)) = Some r /\ tdef r = tdef t /\ map (@sh A) (leaves r) = map (@sh A) (leaves t) /\ vec r = map (fun y => radd y x) (vec t)).
Proof.
  intros T A RA teq t u x HS. split; [|split; [|split; [|split]]]; try (apply (@tree_map2_vec T teq A); exact HS).
  - destruct (@tree_map1_vec T A rmul t x) as (r & E & K). exists r. split; [exact E|]. split; [exact E|exact K].
  - destruct (@tree_map1_vec T A radd t x) as (r & E & K). exists r. split; [exact E|]. split; [exact E|exact K].
Qed.
(* C44, an array as second operand: every leaf is combined with it under numpy's broadcasting; raises exactly when the shapes of a leaf and of the array do not fit *)
Definition bcast_with {A} (f : A -> A -> A) (x a r : nd A) : Prop :=
  bshape2 (sh a) (sh x) = Some (sh r) /\ forall p, inb p (sh r) -> at_ r p = f (at_ a (bproj (sh a) p)) (at_ x (bproj (sh x) p)).
Lemma map1_bcast (T A : Type) (f : A -> A -> A) (x : nd A) (l : list (nd A)) : 
  match seqo (map (fun a => binop f a x) l) with Some m => Forall2 (bcast_with f x) l m | None => exists a, In a l /\ bshape2 (sh a) (sh x) = None end.
Proof.
  induction l as [|a l IH]; [constructor|]. cbn [map seqo]. unfold binop at 1. destruct (bshape2 (sh a) (sh x)) as [s|] eqn:E; cbn [bind].
  - destruct (seqo (map (fun a0 => binop f a0 x) l)) as [m|] eqn:Em; cbn [bind].
    + constructor; [|exact IH]. split; [exact E|]. reflexivity.
    + destruct IH as (b & Hb & Eb). exists b. split; [right; exact Hb|exact Eb].
  - exists a. split; [left; reflexivity|exact E].
Qed.
Theorem C44_array_operand : forall (T A : Type) (RA : CRing A) (teq : T -> T -> bool) (t : pytree T (nd A)) (x : nd A),
  tree_mul teq t (OArr x) = tree_scale t x /\ tree_add teq t (OArr x) = tree_shift t x /\
  match tree_scale t x with Some r => tdef r = tdef t /\ Forall2 (bcast_with rmul x) (leaves t) (leaves r) | None => exists a, In a (leaves t) /\ bshape2 (sh a) (sh x) = None end /\
  match tree_shift t x with Some r => tdef r = tdef t /\ Forall2 (bcast_with radd x) (leaves t) (leaves r) | None => exists a, In a (leaves t) /\ bshape2 (sh a) (sh x) = None end.
Proof.
  intros T A RA teq [td l] x. split; [reflexivity|]. split; [reflexivity|]. unfold tree_scale, tree_shift, tree_map1. cbn [leaves tdef].
  pose proof (@map1_bcast T A rmul x l) as H1. pose proof (@map1_bcast T A radd x l) as H2.
  destruct (seqo (map (fun a => binop rmul a x) l)), (seqo (map (fun a => binop radd a x) l)); cbn [bind]; auto.
Qed.
Print Assumptions C44_array_operand.
Lemma seqo_lax_mul (A : Type) (RA : CRing A) (l : list (nd A)) : forall m, map (@sh A) l = map (@sh A) m -> seqo (map2 (@lax_mul A RA) l m) = Some (map2 (ndmap2 rmul) l m).
Proof.
  induction l as [|a l IH]; intros [|b m] H; cbn [map] in H; try discriminate H; [reflexivity|]. injection H as H1 H2. cbn [map2 seqo]. unfold lax_mul at 1.
  destruct list_eq_dec; [|congruence]. rewrite (IH _ H2). reflexivity.
Qed.
Theorem C44_inner_product : forall (T A : Type) (RA : CRing A) (teq : T -> T -> bool) (t u : pytree T (nd A)), same_form teq t u ->
  tree_dot teq t u = (if leaves t then None else Some (dot (vec t) (vec u))) /\
  tree_sum t = (if leaves t then None else Some (fold_right radd r0 (vec t))) /\
  tree_squared_norm t = (if leaves t then None else Some (dot (vec t) (vec t))).
Proof.
  intros T A RA teq [td l] [td' m] [Ht Hs]. cbn [tdef leaves] in *.
  assert (HL : length l = length m) by (apply (f_equal (@length _)) in Hs; rewrite !map_length in Hs; exact Hs).
  assert (HR : forall (g : nd A -> A) (k : list (nd A)), (let* s := tree_map1 (fun x => Some (g x)) (Tree td k) in tree_reduce s) = match k with [] => None | _ :: _ => Some (fold_right radd r0 (map g k)) end).
  { intros g k. unfold tree_map1. cbn [leaves tdef]. rewrite seqo_some. cbn [bind]. destruct k as [|a k]; [reflexivity|]. rewrite reduce_sum by discriminate. reflexivity. }
  assert (HD : forall k n : list (nd A), map (@sh A) k = map (@sh A) n -> fold_right radd r0 (map asum (map2 (ndmap2 rmul) k n)) = dot (concat (map (@flat A) k)) (concat (map (@flat A) n))).
  { unfold dot. induction k as [|a k IH]; intros [|b n] H; cbn [map] in H; try discriminate H; [reflexivity|]. injection H as H1 H2. cbn [map2 map fold_right concat]. rewrite (IH _ H2).
    rewrite map2_app by (unfold flat; rewrite !map_length, H1; reflexivity). rewrite fold_right_app_radd. f_equal. unfold asum, flat. cbn [ndmap2 sh at_]. rewrite <- H1, map2_map, map2_diag, sumL_fold, map_map. reflexivity. }
  split; [|split].
  - unfold tree_dot, tree_map2. cbn [tdef leaves]. rewrite Ht, HL, Nat.eqb_refl. cbn [andb]. rewrite (@seqo_lax_mul A RA l m Hs). cbn [bind]. rewrite HR. destruct l as [|a l], m as [|b m]; try discriminate HL; [reflexivity|].
    exact (f_equal Some (HD (a :: l) (b :: m) Hs)).
  - unfold tree_sum. rewrite HR. destruct l as [|a l]; [reflexivity|]. f_equal. unfold vec. cbn [leaves]. rewrite <- fold_concat. f_equal. apply map_ext. intros y. unfold asum. rewrite sumL_fold, map_id. reflexivity.
  - unfold tree_squared_norm. rewrite HR. destruct l as [|a l]; [reflexivity|]. f_equal. etransitivity; [|exact (HD (a :: l) (a :: l) eq_refl)]. rewrite map2_diag, map_map. f_equal. apply map_ext. intros y.
    unfold asum, sqsum, flat. cbn [ndmap2 sh at_]. rewrite sumL_map. reflexivity.
Qed.
Print Assumptions C44_arithmetic.
Print Assumptions C44_inner_product.

(* C44, concatenation along any axis d (negative axes count from the end): along the axis, tree number j occupies the positions
   after the trees before it. *)
Lemma seqo_nth_map {X Y} (f : X -> option Y) l r k dx dy : seqo (map f l) = Some r -> k < length l -> f (nth k l dx) = Some (nth k r dy).
Proof.
  revert r k. induction l as [|x l IH]; intros r k H Hk; cbn [length] in Hk; [lia|]. cbn [map seqo] in H. destruct (f x) as [y|] eqn:E; [|discriminate H]. destruct (seqo (map f l)) as [r'|] eqn:E2; [|discriminate H].
  cbn in H. injection H as <-. destruct k as [|k]; [exact E|]. cbn [nth]. apply IH; [reflexivity|lia].
Qed.
Theorem C44_concat : forall (T A : Type) (RA : CRing A) (teq : T -> T -> bool) (ts : list (pytree T (nd A))) (ax : Z) (r : pytree T (nd A)) (t0 : pytree T (nd A)),
  tree_concat teq ts ax = Some r ->
  forall k, k < length (leaves (hd t0 ts)) ->
  let piece j := nth k (leaves (nth j ts t0)) nd_ in let y := nth k (leaves r) nd_ in
  exists d, axis (ndim y) ax = Some d /\
  (forall j, j < length ts -> ndim (piece j) = ndim y /\ dropn d (sh (piece j)) = dropn d (sh y)) /\
  nth d (sh y) 0 = list_sum (map (fun j => nth d (sh (piece j)) 0) (seq 0 (length ts))) /\
  forall j x q, j < length ts -> x < nth d (sh (piece j)) 0 -> inb q (dropn d (sh y)) ->
    at_ y (insn d (list_sum (map (fun j' => nth d (sh (piece j')) 0) (seq 0 j)) + x) q) = at_ (piece j) (insn d x q).
Proof.
  intros T A RA teq ts ax r t0 H k Hk piece y. unfold tree_concat, tree_mapn in H. destruct ts as [|t ts]; [discriminate H|]. destruct (forallb _ _) eqn:EF; [|discriminate H].
  destruct (seqo _) as [l|] eqn:ES in H; [|discriminate H]. cbn in H. injection H as <-. cbn [hd] in Hk. subst y. cbn [leaves].
  pose proof (@seqo_nth_map _ _ _ _ _ k 0 nd_ ES ltac:(rewrite seq_length; exact Hk)) as E. rewrite seq_nth in E by exact Hk. cbn [Nat.add] in E.
  set (y := nth k l nd_) in *. set (xs := map (fun u => nth k (leaves u) nd_) (t :: ts)) in *.
  assert (EX : forall j, j < S (length ts) -> nth j xs nd_ = piece j) by (intros j Hj; unfold xs; rewrite nth_map_in with (dx := t0) by (cbn; exact Hj); reflexivity).
  assert (LX : length xs = S (length ts)) by (unfold xs; rewrite map_length; reflexivity).
  assert (EMx : map piece (seq 0 (length (t :: ts))) = xs).
  { apply nth_ext with (d := nd_) (d' := nd_); [rewrite map_length, seq_length; symmetry; exact LX|]. rewrite map_length, seq_length. intros j Hj. rewrite nth_map_in with (dx := 0) by (rewrite seq_length; exact Hj). rewrite seq_nth by exact Hj. cbn [Nat.add]. symmetry. apply EX. exact Hj. }
  clearbody xs. unfold concat_axis in E. destruct xs as [|x0 xs]; [discriminate LX|]. destruct (axis (ndim x0) ax) as [d|] eqn:EA; [|discriminate E]. cbn [bind] in E. destruct (forallb _ (x0 :: xs)) eqn:EF2; [|discriminate E]. injection E as E.
  assert (Hd := axis_lt _ _ EA). unfold ndim in Hd.
  assert (HX : forall j, j < S (length ts) -> ndim (piece j) = ndim x0 /\ dropn d (sh (piece j)) = dropn d (sh x0)).
  { intros j Hj. rewrite <- EX by exact Hj. rewrite forallb_forall in EF2. specialize (EF2 (nth j (x0 :: xs) nd_) ltac:(apply nth_In; rewrite LX; exact Hj)). apply andb_prop in EF2. destruct EF2 as [F1 F2]. apply Nat.eqb_eq in F1. destruct list_eq_dec as [e|]; [auto|discriminate F2]. }
  assert (EY : sh y = insn d (list_sum (map (fun j => nth d (sh (piece j)) 0) (seq 0 (length (t :: ts))))) (dropn d (sh x0))).
  { rewrite <- E. unfold from_front, concat0. cbn [sh hd tl]. cbn [map]. change (rows (to_front d x0) :: map rows (map (to_front d) xs)) with (map rows (map (to_front d) (x0 :: xs))). cbn [hd to_front sh tl]. f_equal. rewrite <- EMx, !map_map. reflexivity. }
  assert (Ld : length (dropn d (sh x0)) = length (sh x0) - 1) by (apply dropn_length; exact Hd).
  assert (Linsn : forall d v (l : list nat), d <= length l -> length (insn d v l) = S (length l)).
  { induction d0 as [|d0 IH]; intros v [|z l'] H; cbn in *; try lia. rewrite IH by lia. reflexivity. }
  assert (Dinsn : forall d v (l : list nat), d <= length l -> dropn d (insn d v l) = l /\ nth d (insn d v l) 0 = v).
  { induction d0 as [|d0 IH]; intros v [|z l'] H; cbn in *; auto; try lia. destruct (IH v l' ltac:(lia)) as [-> ->]. auto. }
  assert (NY : ndim y = ndim x0) by (unfold ndim; rewrite EY, Linsn by lia; lia).
  assert (DY : dropn d (sh y) = dropn d (sh x0)) by (rewrite EY; apply Dinsn; lia).
  exists d. split; [rewrite NY; exact EA|]. split; [intros j Hj; rewrite NY, DY; apply HX; exact Hj|]. split; [rewrite EY; apply Dinsn; lia|].
  intros j x q Hj Hx Hq. rewrite DY in Hq. assert (Lq : length q = length (dropn d (sh x0))) by (apply inb_length; exact Hq). rewrite <- E. unfold from_front. cbn [at_].
  destruct (Dinsn d (list_sum (map (fun j' => nth d (sh (piece j')) 0) (seq 0 j)) + x) q ltac:(lia)) as [D1 D2]. rewrite D1, D2. unfold concat0. cbn [at_ hd tl].
  pose proof (@cat_at_off A r0 (map (to_front d) (x0 :: xs)) j x q (to_front d nd_)) as HC. rewrite map_length, LX in HC. cbn [length] in Hj. specialize (HC Hj).
  rewrite (map_nth (to_front d)) in HC. rewrite (EX j Hj) in HC. specialize (HC Hx).
  assert (EO : off (map rows (map (to_front d) (x0 :: xs))) j = list_sum (map (fun j' => nth d (sh (piece j')) 0) (seq 0 j))).
  { unfold off. rewrite map_map. rewrite <- EMx, map_map. rewrite firstn_map. f_equal. replace (firstn j (seq 0 (length (t :: ts)))) with (seq 0 j).
    - reflexivity.
    - cbn [length]. replace (S (length ts)) with (j + (S (length ts) - j)) by lia. rewrite seq_app, firstn_app, seq_length, Nat.sub_diag, firstn_O, app_nil_r. rewrite firstn_all2; [reflexivity|rewrite seq_length; lia]. }
  rewrite EO in HC. etransitivity; [exact HC|]. reflexivity.
Qed.
Print Assumptions C44_concat.

(* C44, selection: tree_take keeps exactly the requested positions of every leaf along the axis, in the requested order; tree_idx picks one
   row; tree_expand inserts an axis of size one. *)
Theorem C44_take_indices : forall (T A : Type) (RA : CRing A) (t r : pytree T (nd A)) (idx : nd Z) (ax : Z), tree_take t (Indices idx) ax = Some r ->
  tdef r = tdef t /\ length (leaves r) = length (leaves t) /\
  forall k, k < length (leaves t) -> let x := nth k (leaves t) nd_ in let y := nth k (leaves r) nd_ in
  exists d, axis (ndim x) ax = Some d /\ sh y = firstn d (sh x) ++ sh idx ++ skipn (S d) (sh x) /\
  forall p q s, length p = d -> length p < length (sh x) -> inb q (sh idx) ->
    exists j, at_ y (p ++ q ++ s) = at_ x (p ++ j :: s) /\ j < nth d (sh x) 0 /\ (Z.of_nat j = at_ idx q \/ Z.of_nat j = at_ idx q + Z.of_nat (nth d (sh x) 0%nat))%Z.
Proof.
  intros T A RA t r idx ax H. unfold tree_take, tree_map1 in H. destruct (seqo _) as [l|] eqn:ES in H; [|discriminate H]. cbn in H. injection H as <-. cbn [tdef leaves].
  split; [reflexivity|]. split; [etransitivity; [exact (@VmapFacts.seqo_length _ _ _ ES)|apply map_length]|]. intros k Hk. set (x := nth k (leaves t) nd_). set (y := nth k l nd_).
  pose proof (@seqo_nth_map _ _ _ _ _ k nd_ nd_ ES Hk) as E. cbn beta in E. fold x y in E. unfold jtake in E. destruct (axis (ndim x) ax) as [d|] eqn:EA; [|discriminate E]. cbn [bind] in E.
  destruct (forallb _ _) eqn:EF; [|discriminate E]. injection E as E. exists d. split; [reflexivity|]. rewrite <- E. cbn [sh at_]. split; [reflexivity|]. intros p q s Lp Hp Hq.
  rewrite forallb_forall in EF. specialize (EF q ltac:(apply allix_spec; exact Hq)). assert (Lq : length q = ndim idx) by (apply inb_length; exact Hq).
  assert (E1 : firstn (ndim idx) (skipn d (p ++ q ++ s)) = q) by (rewrite <- Lp, skipn_app, Nat.sub_diag, skipn_all, skipn_O; cbn [app]; rewrite <- Lq, firstn_app, Nat.sub_diag, firstn_all, firstn_O, app_nil_r; reflexivity).
  assert (E2 : firstn d (p ++ q ++ s) = p) by (rewrite <- Lp, firstn_app, Nat.sub_diag, firstn_all, firstn_O, app_nil_r; reflexivity).
  assert (E3 : skipn (d + ndim idx) (p ++ q ++ s) = s).
  { rewrite app_assoc, skipn_app. rewrite skipn_all2 by (rewrite app_length; lia). rewrite app_length. replace (d + ndim idx - (length p + length q)) with 0 by lia. reflexivity. }
  rewrite E1, E2, E3. destruct (wrap (nth d (sh x) 0) (at_ idx q)) as [j|] eqn:EW; [|discriminate EF]. exists j. split; [reflexivity|]. split; [exact (axis_lt _ _ EW)|].
  unfold wrap, axis in EW. destruct (_ && _) eqn:EB; [|discriminate EW]. apply andb_prop in EB. destruct EB as [B1 B2]. apply Z.leb_le in B1. apply Z.ltb_lt in B2. injection EW as <-. destruct (Z.ltb_spec (at_ idx q) 0); [right|left]; rewrite Z2Nat.id; lia.
Qed.
Theorem C44_take_slice : forall (T A : Type) (RA : CRing A) (t r : pytree T (nd A)) (lo hi : nat) (ax : Z), tree_take t (Slice lo hi) ax = Some r ->
  tdef r = tdef t /\ length (leaves r) = length (leaves t) /\
  forall k, k < length (leaves t) -> let x := nth k (leaves t) nd_ in let y := nth k (leaves r) nd_ in
  exists d, axis (ndim x) ax = Some d /\ sh y = insn d (Nat.min hi (nth d (sh x) 0) - Nat.min lo (nth d (sh x) 0)) (dropn d (sh x)) /\
  forall i, at_ y i = at_ x (insn d (lo + nth d i 0) (dropn d i)).
Proof.
  intros T A RA t r lo hi ax H. unfold tree_take, tree_map1 in H. destruct (seqo _) as [l|] eqn:ES in H; [|discriminate H]. cbn in H. injection H as <-. cbn [tdef leaves].
  split; [reflexivity|]. split; [etransitivity; [exact (@VmapFacts.seqo_length _ _ _ ES)|apply map_length]|]. intros k Hk. set (x := nth k (leaves t) nd_). set (y := nth k l nd_).
  pose proof (@seqo_nth_map _ _ _ _ _ k nd_ nd_ ES Hk) as E. cbn beta in E. fold x y in E. destruct (axis (ndim x) ax) as [d|] eqn:EA; [|discriminate E]. cbn [bind] in E. injection E as E. exists d. rewrite <- E. auto.
Qed.
Theorem C44_idx_expand : forall (T A : Type) (RA : CRing A) (t r : pytree T (nd A)) (ax : Z),
  (tree_expand t ax = Some r -> forall k, k < length (leaves t) -> let x := nth k (leaves t) nd_ in let y := nth k (leaves r) nd_ in
     exists d, axis (S (ndim x)) ax = Some d /\ sh y = insn d 1 (sh x) /\ forall i, inb i (sh x) -> at_ y (insn d 0 i) = at_ x i) /\
  (forall j, tree_idx t j = Some r -> forall k, k < length (leaves t) -> let x := nth k (leaves t) nd_ in let y := nth k (leaves r) nd_ in
     exists b, axis (rows x) j = Some b /\ sh y = tl (sh x) /\ forall i, at_ y i = at_ x (b :: i)).
Proof.
  intros T A RA t r ax. split.
  - intros H k Hk x y. unfold tree_expand, tree_map1 in H. destruct (seqo _) as [l|] eqn:ES in H; [|discriminate H]. cbn in H. injection H as <-. cbn [leaves] in y.
    pose proof (@seqo_nth_map _ _ _ _ _ k nd_ nd_ ES Hk) as E. cbn beta in E. fold x y in E. destruct (axis (S (ndim x)) ax) as [d|] eqn:EA; [|discriminate E]. cbn [bind] in E. injection E as E. exists d. rewrite <- E. cbn [sh at_].
    split; [reflexivity|]. split; [reflexivity|]. intros i Hi. assert (Hd := axis_lt _ _ EA). assert (Li : length i = ndim x) by (apply inb_length; exact Hi). f_equal.
    assert (Hd' : d <= length i) by lia. clear -Hd'. revert i Hd'. induction d as [|d IH]; intros [|z i] H; cbn in *; auto; try lia. rewrite IH by lia. reflexivity.
  - intros j H k Hk x y. unfold tree_idx, tree_map1 in H. destruct (seqo _) as [l|] eqn:ES in H; [|discriminate H]. cbn in H. injection H as <-. cbn [leaves] in y.
    pose proof (@seqo_nth_map _ _ _ _ _ k nd_ nd_ ES Hk) as E. cbn beta in E. fold x y in E. unfold rows. destruct (sh x) as [|n s] eqn:Es; [discriminate E|]. cbn [hd tl]. destruct (axis n j) as [b|] eqn:EA; [|discriminate E]. cbn [bind] in E. injection E as E. exists b. rewrite <- E. unfold row. cbn [sh at_]. rewrite Es. auto.
Qed.
Print Assumptions C44_take_indices.
Print Assumptions C44_take_slice.
Print Assumptions C44_idx_expand.

(* concrete cases: two leaves of shapes (3,2) and (4); the sizes 2, 5 run past the end of both *)
Definition ex_tree : pytree nat (nd Z) := Tree 7 [arr [3; 2] [1; 2; 3; 4; 5; 6]%Z; arr [4] [10; 20; 30; 40]%Z].
Example C44_case :
  option_map (map (fun u => map (fun x => (map Z.of_nat (sh x), flat x)) (leaves u))) (tree_split ex_tree [2; 5]) =
    Some [[([2; 2], [1; 2; 3; 4]); ([2], [10; 20])]; [([1; 2], [5; 6]); ([2], [30; 40])]; [([0; 2], []); ([0], [])]]%Z /\
  option_map (fun u => map (fun x => (map Z.of_nat (sh x), flat x)) (leaves u)) (let* ps := tree_split ex_tree [2; 5] in tree_concat Nat.eqb ps 0) = Some [([3; 2], [1; 2; 3; 4; 5; 6]); ([4], [10; 20; 30; 40])]%Z /\
  same_form Nat.eqb ex_tree ex_tree /\ tree_dot Nat.eqb ex_tree ex_tree = Some 3091%Z /\ tree_squared_norm ex_tree = Some 3091%Z /\ tree_sum ex_tree = Some 121%Z /\
  option_map (fun u => map (fun x => (map Z.of_nat (sh x), flat x)) (leaves u)) (tree_take ex_tree (Indices (arr [2] [-1; 0]%Z)) 0) = Some [([2; 2], [5; 6; 1; 2]); ([2], [40; 10])]%Z /\
  option_map (fun u => map (fun x => (map Z.of_nat (sh x), flat x)) (leaves u)) (tree_take ex_tree (Slice 1 3) 0) = Some [([2; 2], [3; 4; 5; 6]); ([2], [20; 30])]%Z /\
  option_map (fun u => map (fun x => (map Z.of_nat (sh x), flat x)) (leaves u)) (tree_idx ex_tree (-1)) = Some [([2], [5; 6]); ([], [40])]%Z.
Proof. split; [reflexivity|]. split; [reflexivity|]. split; [split; reflexivity|]. repeat split; reflexivity. Qed.
(* an array of shape (2) as second operand: fits a leaf (3,2), not a leaf (4) *)
Example C44_array_case :
  option_map (fun u => map (fun x => (map Z.of_nat (sh x), flat x)) (leaves u)) (tree_mul Nat.eqb (Tree 7 [arr [3; 2] [1; 2; 3; 4; 5; 6]%Z; arr [1] [7]%Z]) (OArr (arr [2] [10; 100]%Z))) =
    Some [([3; 2], [10; 200; 30; 400; 50; 600]); ([2], [70; 700])]%Z /\ tree_add Nat.eqb ex_tree (OArr (arr [2] [10; 100]%Z)) = None.
Proof. split; vm_compute; reflexivity. Qed.
