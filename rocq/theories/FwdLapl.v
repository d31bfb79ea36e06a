(* FwdLapl.v : model of ravel (utils.py:300-318), init_forward_laplacian_state (interpreter.py:222-253) and forward_laplacian (interpreter.py:256-307). *)
From Verif Require Export InterpScan.
From Coq Require Import QArith Qround.
Set Implicit Arguments.
Open Scope nat_scope.

(* ---- utils.py:300-318 ravel.  Pytrees are the list of their leaves (tree_flatten / unflatten are JAX's). ---- *)
(* l.307 jnp.concatenate([l.ravel() for l in leaves]) *)
Definition ravel {X} (xs : list (nd X)) : list X := concat (map (@flat X) xs).
(* the length of the flat vector of arrays of these shapes *)
Definition total (ss : list shape) : nat := list_sum (map prod ss).
(* l.309-316 unravel: arr[idx : idx + size].reshape(shape) *)
Fixpoint unravel_from {X} (d : X) (idx : nat) (ss : list shape) (v : list X) : list (nd X) :=
  match ss with
  | [] => []
  | s :: ss' => Nd s (fun p => nth (ravel_ix s p) (firstn (prod s) (skipn idx v)) d) :: unravel_from d (idx + prod s) ss' v
  end.
(* utils.py:309-316 unravel *)
Definition unravel {X} (d : X) (ss : list shape) (v : list X) : list (nd X) := unravel_from d 0 ss v.
(* the flat coordinate of element p of leaf k *)
Definition coord (ss : list shape) (k : nat) (p : ix) : nat := total (firstn k ss) + ravel_ix (nth k ss []) p.

Section Ravel.
Context {X : Type}.
Lemma flat_length (a : nd X) : length (flat a) = prod (sh a).
Proof. unfold flat. rewrite map_length, allix_length. reflexivity. Qed.
Lemma nth_flat (a : nd X) p d : inb p (sh a) -> nth (ravel_ix (sh a) p) (flat a) d = at_ a p.
Proof. intros H. unfold flat. rewrite (@nth_map_in ix X (at_ a) (allix (sh a)) (ravel_ix (sh a) p) [] d) by (rewrite allix_length; apply ravel_lt; exact H). rewrite nth_ravel_allix by exact H. reflexivity. Qed.
Lemma ravel_length (xs : list (nd X)) : length (ravel xs) = total (map (@sh X) xs).
Proof. unfold ravel, total. induction xs as [|x xs IH]; cbn; [reflexivity|]. rewrite app_length, flat_length, IH. reflexivity. Qed.
Lemma nth_firstn_lt (l : list X) n k d : k < n -> nth k (firstn n l) d = nth k l d.
Proof. revert n k. induction l as [|x l IH]; intros [|n] [|k] H; cbn; auto; try lia. apply IH. lia. Qed.
Lemma nth_skipn_add (l : list X) n k d : nth k (skipn n l) d = nth (n + k) l d.
Proof. revert n. induction l as [|x l IH]; intros [|n]; cbn; auto; destruct k; auto. Qed.
Lemma unravel_from_length d (ss : list shape) : forall idx (v : list X), length (unravel_from d idx ss v) = length ss.
Proof. induction ss as [|s ss IH]; intros idx v; cbn; auto. Qed.
Lemma unravel_from_nth d (ss : list shape) : forall idx (v : list X) k d', k < length ss ->
  sh (nth k (unravel_from d idx ss v) d') = nth k ss [] /\
  forall p, inb p (nth k ss []) -> at_ (nth k (unravel_from d idx ss v) d') p = nth (idx + coord ss k p) v d.
Proof.
  induction ss as [|s ss IH]; intros idx v k d' Hk; cbn [length] in Hk; [lia|]. destruct k as [|k]; cbn [unravel_from nth].
  - split; [reflexivity|]. intros p Hp. cbn [at_]. rewrite nth_firstn_lt by (apply ravel_lt; exact Hp). rewrite nth_skipn_add. reflexivity.
  - destruct (IH (idx + prod s) v k d' ltac:(lia)) as [H1 H2]. split; [exact H1|]. intros p Hp. rewrite (H2 p Hp). unfold coord. cbn [firstn nth total map list_sum fold_right]. unfold total. cbn [map list_sum fold_right]. f_equal. unfold list_sum. lia.
Qed.
Lemma unravel_nth d (ss : list shape) (v : list X) k d' : k < length ss -> sh (nth k (unravel d ss v) d') = nth k ss [] /\ forall p, inb p (nth k ss []) -> at_ (nth k (unravel d ss v) d') p = nth (coord ss k p) v d.
Proof. apply unravel_from_nth. Qed.
Lemma nth_ravel d d' (xs : list (nd X)) : forall k p, k < length xs -> inb p (sh (nth k xs d')) -> nth (coord (map (@sh X) xs) k p) (ravel xs) d = at_ (nth k xs d') p.
Proof.
  induction xs as [|x xs IH]; intros k p Hk Hp; cbn [length] in Hk; [lia|]. unfold ravel, coord. cbn [map concat]. destruct k as [|k]; cbn [firstn nth].
  - cbn [nth] in Hp. cbn [total map list_sum fold_right Nat.add]. unfold total. cbn. rewrite app_nth1 by (rewrite flat_length; apply ravel_lt; exact Hp). apply nth_flat. exact Hp.
  - cbn [nth] in Hp. specialize (IH k p ltac:(lia) Hp). unfold coord in IH. rewrite app_nth2 by (rewrite flat_length; unfold total; cbn; lia). rewrite <- IH. unfold ravel. f_equal. rewrite flat_length. unfold total. cbn [map list_sum fold_right]. unfold list_sum. lia.
Qed.
End Ravel.
Lemma total_cons s ss : total (s :: ss) = prod s + total ss.
Proof. reflexivity. Qed.
Lemma total_firstn_S (ss : list shape) k : k < length ss -> total (firstn (S k) ss) = total (firstn k ss) + prod (nth k ss []).
Proof. revert k. induction ss as [|s ss IH]; intros k Hk; cbn [length] in Hk; [lia|]. destruct k as [|k]; [cbn [firstn nth]; unfold total; cbn; lia|]. change (firstn (S (S k)) (s :: ss)) with (s :: firstn (S k) ss). change (firstn (S k) (s :: ss)) with (s :: firstn k ss). rewrite !total_cons. rewrite IH by lia. cbn [nth]. lia. Qed.
Lemma total_firstn_le (ss : list shape) k m : k <= m -> total (firstn k ss) <= total (firstn m ss).
Proof. revert k m. induction ss as [|s ss IH]; intros [|k] [|m] H; cbn [firstn]; auto; try lia; [unfold total; cbn; lia|]. rewrite !total_cons. specialize (IH k m ltac:(lia)). lia. Qed.
Lemma coord_lt (ss : list shape) k p : k < length ss -> inb p (nth k ss []) -> coord ss k p < total ss.
Proof.
  intros Hk Hp. unfold coord. apply Nat.lt_le_trans with (total (firstn k ss) + prod (nth k ss [])).
  - apply Nat.add_lt_mono_l. apply ravel_lt. exact Hp.
  - eapply Nat.le_trans; [apply Nat.eq_le_incl; symmetry; exact (@total_firstn_S ss k Hk)|]. pose proof (@total_firstn_le ss (S k) (length ss) ltac:(lia)) as H. rewrite firstn_all in H. exact H.
Qed.
Lemma coord_inj (ss : list shape) k p k' p' : k < length ss -> k' < length ss -> inb p (nth k ss []) -> inb p' (nth k' ss []) -> coord ss k p = coord ss k' p' -> k = k' /\ p = p'.
Proof.
  assert (HW : forall k p k' p', k < length ss -> k' < length ss -> inb p (nth k ss []) -> inb p' (nth k' ss []) -> k < k' -> coord ss k p < coord ss k' p').
  { intros a u b w Ha Hb Hu Hw Hab. unfold coord. apply Nat.lt_le_trans with (total (firstn a ss) + prod (nth a ss [])).
    - apply Nat.add_lt_mono_l. apply ravel_lt. exact Hu.
    - eapply Nat.le_trans; [apply Nat.eq_le_incl; symmetry; exact (@total_firstn_S ss a Ha)|]. pose proof (@total_firstn_le ss (S a) b ltac:(lia)) as HH. apply Nat.le_trans with (1 := HH). apply Nat.le_add_r. }
  intros Hk Hk' Hp Hp' E. destruct (Nat.lt_trichotomy k k') as [H|[H|H]].
  - pose proof (HW _ _ _ _ Hk Hk' Hp Hp' H). lia.
  - subst k'. split; [reflexivity|]. unfold coord in E. apply Nat.add_cancel_l in E. exact (eq_trans (eq_sym (unravel_ravel Hp)) (eq_trans (f_equal (unravel_ix _) E) (unravel_ravel Hp'))).
  - pose proof (HW _ _ _ _ Hk' Hk Hp' Hp H). lia.
Qed.
Lemma coord_surj (ss : list shape) i : i < total ss -> exists k p, k < length ss /\ inb p (nth k ss []) /\ coord ss k p = i.
Proof.
  revert i. induction ss as [|s ss IH]; intros i Hi; [unfold total in Hi; cbn in Hi; lia|]. rewrite total_cons in Hi. destruct (Nat.lt_ge_cases i (prod s)) as [H|H].
  - exists 0, (unravel_ix s i). cbn [length nth]. split; [lia|]. split; [apply unravel_inb; exact H|]. unfold coord. cbn [firstn nth]. rewrite ravel_unravel by exact H. reflexivity.
  - destruct (IH (i - prod s) ltac:(lia)) as (k & p & H1 & H2 & H3). exists (S k), p. cbn [length nth]. split; [lia|]. split; [exact H2|]. unfold coord in *. cbn [firstn nth]. rewrite total_cons. lia.
Qed.

(* ---- interpreter.py:288-291 ---- *)
(* sparsity_threshold is a real number; arithmetic on it is exact here (Python floats round) *)
Definition trunc (q : Q) : Z := if Qle_bool 0 q then Qfloor q else Qceiling q.       (* Python int(x) *)
Definition threshold_of (t : Q) (sizes : list nat) : Z :=
  if negb (Qle_bool t 0) && negb (Qle_bool 1 t) then trunc (t * inject_Z (Z.of_nat (list_sum sizes))) else trunc t.

Section Fwd.
Context {A : Type} {RA : CRing A}.
Add Ring AringFwd : (@rth A RA).
Open Scope cr_scope.
(* interpreter.py:222-253 init_forward_laplacian_state.  ws: the weight of each leaf, an array that broadcasts to the leaf (jnp.full_like).
   Integer and complex inputs are not modelled. *)
Definition leaf_weights (ws xs : list (nd A)) : list (nd A) := map2 (fun w x => broadcast_to (sh x) w) ws xs.   (* l.234-240 *)
Definition seed_idx (xs : list (nd A)) : list (nd Z) := unravel 0%Z (map (@sh A) xs) (map Z.of_nat (seq 0 (length (ravel xs)))).  (* l.241 *)
(* l.250 jnp.diag(ravel(jac)[0]), row r *)
Definition diag_row (v : list A) (r : nat) : list A := map (fun c => if Nat.eqb c r then nth c v 0 else 0) (seq 0 (length v)).
(* interpreter.py:222-253 init_forward_laplacian_state, leaf k *)
Definition seed (sparse : bool) (ws xs : list (nd A)) (k : nat) : lapl A :=
  let x := nth k xs nd0 in let js := leaf_weights ws xs in
  let J := if sparse then Jac (expand0 (nth k js nd0)) (Some (expand0 (nth k (seed_idx xs) (Nd [] (fun _ => 0%Z)))))         (* l.246-248 *)
           else Jac (stack (length (ravel js)) (sh x) (fun r => nth k (unravel 0 (map (@sh A) js) (diag_row (ravel js) r)) nd0)) None in  (* l.250-251 *)
  Lapl x J (Nd (sh x) (fun _ => 0)).                                                                                           (* l.252-253 *)
Definition seeds (sparse : bool) (ws xs : list (nd A)) : list (arg A) := map (fun k => AL (seed sparse ws xs k)) (seq 0 (length xs)).
(* l.228-229: any FwdLaplArray among the leaves: the leaves are used as they are *)
Definition init_state (sparse : bool) (ws : list (nd A)) (leaves : list (arg A)) : list (arg A) :=
  if existsb (@is_al A) leaves then leaves else seeds sparse ws (map (@aval A) leaves).

Context {K : Type} (reg : K -> option (@lrule A)) (nreg : nat -> option (@lrule A)) (c2r : bool).
(* interpreter.py:274-302 forward_laplacian(fn, sparsity_threshold=t) called with args and weights=ws for the traced function j.
   The jaxpr is given (jax.make_jaxpr is JAX's); the output pytree is the list of its leaves. *)
Definition forward_laplacian (t : Q) (j : @jaxpr A K) (ws : list (nd A)) (leaves : list (arg A)) : option (list (arg A)) :=
  let th := threshold_of t (map (fun v => prod (sh (aval v))) leaves) in
  jrun reg nreg c2r true th j true (init_state (0 <? th)%Z ws leaves).

(* ---- the seeds ---- *)
Context (ws xs : list (nd A)).
Local Notation ss := (map (@sh A) xs).
(* the weights match the leaves: one per leaf, broadcastable to it *)
Definition wts_ok : Prop := length ws = length xs /\ forall k, (k < length xs)%nat -> bto (sh (nth k ws nd0)) (sh (nth k xs nd0)).
(* specification: the weight of element p of leaf k *)
Definition weight (k : nat) (p : ix) : A := at_ (nth k ws nd0) (bproj (sh (nth k ws nd0)) p).
Lemma ss_nth k : (k < length xs)%nat -> nth k ss [] = sh (nth k xs nd0).
Proof. intros H. rewrite nth_map_in with (dx := nd0) by exact H. reflexivity. Qed.
Lemma lw_length : length ws = length xs -> length (leaf_weights ws xs) = length xs.
Proof. intros H. unfold leaf_weights. rewrite map2_length, H. lia. Qed.
Lemma lw_nth k : length ws = length xs -> (k < length xs)%nat -> nth k (leaf_weights ws xs) nd0 = broadcast_to (sh (nth k xs nd0)) (nth k ws nd0).
Proof.
  unfold leaf_weights. generalize dependent k. clear. revert ws. induction xs as [|x l IH]; intros [|w m] k H Hk; cbn in *; try lia; try discriminate. destruct k as [|k]; [reflexivity|]. apply IH; lia.
Qed.
Lemma lw_shapes : length ws = length xs -> map (@sh A) (leaf_weights ws xs) = ss.
Proof. unfold leaf_weights. clear. revert ws. induction xs as [|x l IH]; intros [|w m] H; cbn in *; try discriminate; auto. f_equal. apply IH. lia. Qed.
Lemma lw_ravel_length : length ws = length xs -> length (ravel (leaf_weights ws xs)) = total ss.
Proof. intros H. rewrite ravel_length, lw_shapes by exact H. reflexivity. Qed.
Lemma nth_diag v r c : (c < length v)%nat -> nth c (diag_row v r) 0 = if Nat.eqb c r then nth c v 0 else 0.
Proof. intros H. unfold diag_row. rewrite nth_map_in with (dx := 0%nat) by (rewrite seq_length; exact H). rewrite seq_nth by exact H. reflexivity. Qed.
Lemma diag_length v r : length (diag_row v r) = length v.
Proof. unfold diag_row. rewrite map_length, seq_length. reflexivity. Qed.

Lemma seed_ok sparse k : wts_ok -> (k < length xs)%nat ->
  lx (seed sparse ws xs k) = nth k xs nd0 /\ awf (total ss) (seed sparse ws xs k) /\ jrow1 (ljac (seed sparse ws xs k)) /\ weak (ljac (seed sparse ws xs k)) = sparse /\
  rows (jdata (ljac (seed sparse ws xs k))) = (if sparse then 1 else total ss)%nat /\
  (forall p, inb p (sh (nth k xs nd0)) -> at_ (llap (seed sparse ws xs k)) p = 0) /\
  (forall i p, inb p (sh (nth k xs nd0)) -> jent (ljac (seed sparse ws xs k)) i p = if Nat.eqb i (coord ss k p) then weight k p else 0).
Proof.
  intros [Hl Hw] Hk. assert (Hks : (k < length ss)%nat) by (rewrite map_length; exact Hk).
  pose proof (lw_nth Hl Hk) as EW. pose proof (lw_shapes Hl) as ES. pose proof (lw_ravel_length Hl) as EL. pose proof (ss_nth Hk) as Esk.
  assert (EX : length (ravel xs) = total ss) by (rewrite ravel_length; reflexivity).
  assert (HIx : sh (nth k (seed_idx xs) (Nd [] (fun _ => 0%Z))) = sh (nth k xs nd0) /\ forall p, inb p (sh (nth k xs nd0)) -> at_ (nth k (seed_idx xs) (Nd [] (fun _ => 0%Z))) p = Z.of_nat (coord ss k p)).
  { unfold seed_idx.  rewrite EX. destruct (@unravel_nth Z 0%Z ss (map Z.of_nat (seq 0 (total ss))) k (Nd [] (fun _ => 0%Z)) Hks) as [U1 U2]. rewrite Esk in U1, U2. split; [exact U1|].
    intros p Hp. rewrite (U2 p Hp). assert (Hc : (coord ss k p < total ss)%nat) by (apply coord_lt; [exact Hks|rewrite Esk; exact Hp]). rewrite nth_map_in with (dx := 0%nat) by (rewrite seq_length; exact Hc). rewrite seq_nth by exact Hc. reflexivity. }
  assert (Hc : forall p, inb p (sh (nth k xs nd0)) -> (coord ss k p < total ss)%nat) by (intros p Hp; apply coord_lt; [exact Hks|rewrite Esk; exact Hp]).
  split; [reflexivity|]. destruct sparse.
  - assert (ESd : seed true ws xs k = Lapl (nth k xs nd0) (Jac (expand0 (broadcast_to (sh (nth k xs nd0)) (nth k ws nd0))) (Some (expand0 (nth k (seed_idx xs) (Nd [] (fun _ => 0%Z)))))) (Nd (sh (nth k xs nd0)) (fun _ => 0))) by (unfold seed; cbv zeta; rewrite EW; reflexivity).
    rewrite ESd. clear ESd. cbn [lx ljac llap weak jidx jdata]. destruct HIx as [I1 I2]. split.
    { split; [|reflexivity]. exists 1%nat. cbn [jdata expand0 broadcast_to sh jidx seed lx ljac]. split; [reflexivity|]. cbn [expand0 sh]. rewrite I1. split; [reflexivity|].
      intros r p Hr Hp. cbn [expand0 at_ tl]. rewrite I2 by exact Hp. pose proof (Hc p Hp). split; [lia|intros Hneg; lia]. }
    split; [intros _; cbn; lia|]. split; [reflexivity|]. split; [reflexivity|]. split; [intros p Hp; reflexivity|].
    intros i p Hp. unfold jent. cbn [ljac jidx jdata expand0 rows sh hd at_ tl broadcast_to]. unfold sumn. cbn [seq sumL]. rewrite I2 by exact Hp.
    destruct (Z.eqb_spec (Z.of_nat (coord ss k p)) (Z.of_nat i)) as [E|E]; destruct (Nat.eqb_spec i (coord ss k p)) as [E'|E']; try lia; unfold weight; ring.
  - cbn [seed lx ljac llap weak jidx jdata]. rewrite EL. split.
    { split; [|reflexivity]. exists (total ss). cbn [jdata stack sh jidx seed ljac lx]. rewrite EL. split; [reflexivity|]. cbn. lia. }
    split; [intros H; discriminate H|]. split; [reflexivity|]. split; [reflexivity|]. split; [intros p Hp; reflexivity|].
    intros i p Hp. unfold jent. cbn [ljac jidx jdata stack rows sh hd at_ tl]. rewrite ES.
    destruct (@unravel_nth A 0 ss (diag_row (ravel (leaf_weights ws xs)) i) k nd0 Hks) as [U1 U2]. rewrite Esk in U1, U2. rewrite (U2 p Hp).
    rewrite nth_diag by (rewrite EL; apply Hc; exact Hp). destruct (Nat.ltb_spec i (total ss)) as [Hi|Hi].
    + rewrite (Nat.eqb_sym (coord ss k p) i). destruct (Nat.eqb_spec i (coord ss k p)) as [E|E]; [|reflexivity].
      rewrite <- ES. rewrite (@nth_ravel A 0 nd0 (leaf_weights ws xs) k p); [|rewrite lw_length by exact Hl; exact Hk|rewrite EW; exact Hp]. rewrite EW. reflexivity.
    + destruct (Nat.eqb_spec i (coord ss k p)) as [E|E]; [|reflexivity]. pose proof (Hc p Hp). lia.
Qed.
End Fwd.
