(* DetJet.v : the determinant along a curve of matrices over any ring with jets (R, C): first and second derivative (Jacobi's formula and its
   derivative).  No code is modelled here; used for slogdet of complex matrices (wrapped_functions.py:194-259). *)
From Coq Require Import Reals.
From Coquelicot Require Import Coquelicot.
From Verif Require Export Jet Det.
Set Implicit Arguments.
Open Scope nat_scope.

(* ---- a derivation of determinants ---- *)
Section Deriv.
Context {T S : Type} {RT : CRing T} {RS : CRing S}.
Add Ring Tring_DetJet : (@rth T RT).
Add Ring Sring_DetJet : (@rth S RS).
Context (pi de : T -> S).
Hypothesis pi0 : pi r0 = r0.
Hypothesis pi1 : pi r1 = r1.
Hypothesis pi_add : forall x y, pi (radd x y) = radd (pi x) (pi y).
Hypothesis pi_mul : forall x y, pi (rmul x y) = rmul (pi x) (pi y).
Hypothesis pi_opp : forall x, pi (ropp x) = ropp (pi x).
Hypothesis de0 : de r0 = r0.
Hypothesis de1 : de r1 = r0.
Hypothesis de_opp : forall x, de (ropp x) = ropp (de x).
Hypothesis de_add : forall x y, de (radd x y) = radd (de x) (de y).
Hypothesis de_mul : forall x y, de (rmul x y) = radd (rmul (de x) (pi y)) (rmul (pi x) (de y)).
Lemma pi_sum X (l : list X) f : pi (sumL l f) = sumL l (fun x => pi (f x)).
Proof. induction l as [|x l IH]; cbn; [exact pi0|]. rewrite pi_add, IH. reflexivity. Qed.
Lemma de_sum X (l : list X) f : de (sumL l f) = sumL l (fun x => de (f x)).
Proof. induction l as [|x l IH]; cbn; [exact de0|]. rewrite de_add, IH. reflexivity. Qed.
Lemma pi_sg j : pi (sg j) = sg j.
Proof. unfold sg. destruct (Nat.even j); [exact pi1|]. rewrite pi_opp, pi1. reflexivity. Qed.
Lemma de_sg j : de (sg j) = r0.
Proof. unfold sg. destruct (Nat.even j); [exact de1|]. rewrite de_opp, de1. ring. Qed.
Lemma pi_det m : forall X, pi (det m X) = det m (fun i j => pi (X i j)).
Proof.
  induction m as [|m IH]; intros X; [exact pi1|]. rewrite !det_S. unfold sumn. rewrite pi_sum. apply sumL_ext. intros j _. rewrite !pi_mul, pi_sg, IH. reflexivity.
Qed.
Lemma de_det m : forall X, de (det m X) = sumn m (fun c => det m (upc (fun i j => pi (X i j)) c (fun i => de (X i c)))).
Proof.
  induction m as [|m IH]; intros X; [exact de1|].
  transitivity (sumn (Datatypes.S m) (fun j => radd (rmul (rmul (sg j) (de (X 0 j))) (det m (minor j (fun i k => pi (X i k))))) (rmul (rmul (sg j) (pi (X 0 j))) (sumn m (fun k => det m (upc (minor j (fun i k => pi (X i k))) k (fun i => de (X (Datatypes.S i) (skip j k))))))))).
  - rewrite det_S. unfold sumn at 1 2. rewrite de_sum. apply sumL_ext. intros j _. rewrite !de_mul, !pi_mul, pi_sg, de_sg, IH, pi_det. cbv [minor]. ring.
  - rewrite (@sumn_ext S RS (Datatypes.S m) (fun c => det (Datatypes.S m) _) (fun c => sumn (Datatypes.S m) (fun j => rmul (rmul (sg j) (upc (fun i k => pi (X i k)) c (fun i => de (X i c)) 0 j)) (det m (minor j (upc (fun i k => pi (X i k)) c (fun i => de (X i c)))))))) by (intros c _; apply det_S).
    rewrite (@sumn_swap S RS). apply sumn_ext. intros j Hj. rewrite (@sumn_skip S RS m j) by lia.
    rewrite (@det_ext S RS m (minor j (upc (fun i k => pi (X i k)) j (fun i => de (X i j)))) (minor j (fun i k => pi (X i k)))) by (intros; apply minor_upc_same).
    unfold upc at 2. rewrite Nat.eqb_refl. f_equal. rewrite <- (@nscale S RS). apply sumn_ext. intros k Hk.
    rewrite (@det_ext S RS m (minor j (upc (fun i l => pi (X i l)) (skip j k) (fun i => de (X i (skip j k))))) (upc (minor j (fun i l => pi (X i l))) k (fun i => de (X (Datatypes.S i) (skip j k))))) by (intros; apply minor_upc_skip).
    unfold upc at 2. destruct (Nat.eqb_spec j (skip j k)) as [Ej|]; [symmetry in Ej; destruct (@skip_ne _ _ Ej)|reflexivity].
Qed.
End Deriv.

Section DetJet.
Context {A : Type} {RA : CRing A} {JA : @Jet A RA}.
Add Ring Aring_DetJet : (@rth A RA).
Local Open Scope cr_scope.
(* dual numbers v + d e, e^2 = 0 (specification) *)
Definition dual := (A * A)%type.
Lemma dual_th : ring_theory (0, 0) (1, 0) (fun x y : dual => (fst x + fst y, snd x + snd y)) (fun x y : dual => (fst x * fst y, snd x * fst y + fst x * snd y)) (fun x y : dual => (fst x - fst y, snd x - snd y)) (fun x : dual => (- fst x, - snd x)) eq.
Proof. split; intros; destruct x; try destruct y; try destruct z; cbn; apply f_equal2; ring. Qed.
Local Instance CRing_dual : CRing dual := {| r0 := (0, 0); r1 := (1, 0); radd := fun x y => (fst x + fst y, snd x + snd y); rmul := fun x y => (fst x * fst y, snd x * fst y + fst x * snd y);
  rsub := fun x y => (fst x - fst y, snd x - snd y); ropp := fun x => (- fst x, - snd x); rth := dual_th |}.
(* second-order jets: value, derivative, second derivative (specification) *)
Definition jet3 := (A * A * A)%type.
(* the components of a jet *)
Definition j_v (x : jet3) : A := fst (fst x).
(* first derivative *)
Definition j_d (x : jet3) : A := snd (fst x).
(* second derivative *)
Definition j_h (x : jet3) : A := snd x.
Lemma jet3_th : ring_theory (0, 0, 0) (1, 0, 0) (fun x y : jet3 => (j_v x + j_v y, j_d x + j_d y, j_h x + j_h y))
  (fun x y : jet3 => (j_v x * j_v y, j_d x * j_v y + j_v x * j_d y, j_h x * j_v y + (1 + 1) * (j_d x * j_d y) + j_v x * j_h y)) (fun x y : jet3 => (j_v x - j_v y, j_d x - j_d y, j_h x - j_h y)) (fun x : jet3 => (- j_v x, - j_d x, - j_h x)) eq.
Proof. split; intros; destruct x as [[? ?] ?]; try destruct y as [[? ?] ?]; try destruct z as [[? ?] ?]; unfold j_v, j_d, j_h; cbn; (apply f_equal2; [apply f_equal2|]); ring. Qed.
Local Instance CRing_jet3 : CRing jet3 := {| r0 := (0, 0, 0); r1 := (1, 0, 0); radd := fun x y => (j_v x + j_v y, j_d x + j_d y, j_h x + j_h y);
  rmul := fun x y => (j_v x * j_v y, j_d x * j_v y + j_v x * j_d y, j_h x * j_v y + (1 + 1) * (j_d x * j_d y) + j_v x * j_h y); rsub := fun x y => (j_v x - j_v y, j_d x - j_d y, j_h x - j_h y); ropp := fun x => (- j_v x, - j_d x, - j_h x); rth := jet3_th |}.
Lemma sg_jet j : @sg jet3 CRing_jet3 j = (sg j, 0, 0).
Proof. unfold sg. destruct (Nat.even j); [reflexivity|]. cbn. unfold j_v, j_d, j_h. cbn. (apply f_equal2; [apply f_equal2|]); ring. Qed.
(* the determinant of a curve of matrices, as a determinant of jets *)
Lemma det_jt m : forall (M : R -> nat -> nat -> A) (X : nat -> nat -> jet3), (forall i j, i < m -> j < m -> jt (fun t => M t i j) (j_v (X i j)) (j_d (X i j)) (j_h (X i j))) ->
  jt (fun t => det m (M t)) (j_v (det m X)) (j_d (det m X)) (j_h (det m X)).
Proof.
  induction m as [|m IH]; intros M X HJ; [exact (@jt_const A RA JA 1)|].
  assert (HS : forall (l : list nat) (f : nat -> R -> A) (F : nat -> jet3), (forall j, In j l -> jt (f j) (j_v (F j)) (j_d (F j)) (j_h (F j))) -> jt (fun t => sumL l (fun j => f j t)) (j_v (sumL l F)) (j_d (sumL l F)) (j_h (sumL l F))).
  { intros l f F. induction l as [|j l IHl]; intros H; [exact (@jt_const A RA JA 0)|]. cbn [sumL]. apply (@jt_add A RA JA); [apply H; left; reflexivity|]. apply IHl. intros k Hk. apply H. right. exact Hk. }
  eapply jt_ext; [apply filter_forall; intros t; symmetry; apply det_S|]. rewrite (@det_S jet3 _ m X). unfold sumn at 1. refine (HS (seq 0 (Datatypes.S m)) (fun j t => sg j * M t 0%nat j * det m (minor j (M t))) _ _). intros j Hj. apply in_seq in Hj.
  apply (@jt_mul A RA JA (fun t => sg j * M t 0%nat j) (fun t => det m (minor j (M t)))).
  - rewrite sg_jet. apply (@jt_mul A RA JA (fun _ => sg j) (fun t => M t 0%nat j)); [apply jt_const|]. apply HJ; lia.
  - apply (IH (fun t => minor j (M t)) (minor j X)). intros i k Hi Hk. unfold minor. apply HJ; [lia|]. apply skip_lt; lia.
Qed.
(* the two halves of a jet *)
Definition dpi (x : jet3) : dual := (j_v x, j_d x).
(* the derivative of a jet *)
Definition dde (x : jet3) : dual := (j_d x, j_h x).
Lemma dual_eq (x y : dual) : fst x = fst y -> snd x = snd y -> x = y.
Proof. destruct x, y; cbn; congruence. Qed.
Ltac duals := intros; apply dual_eq; cbn; unfold j_v, j_d, j_h; cbn; ring.
Lemma dde_det m (X : nat -> nat -> jet3) : dde (det m X) = sumn m (fun c => det m (upc (fun i j => dpi (X i j)) c (fun i => dde (X i c)))).
Proof. apply (@de_det jet3 dual _ _ dpi dde); duals. Qed.
Lemma fst_sum {X} (l : list X) (f : X -> dual) : fst (sumL l f) = sumL l (fun x => fst (f x)).
Proof. induction l as [|x l IH]; [reflexivity|]. cbn. rewrite IH. reflexivity. Qed.
Lemma snd_sum {X} (l : list X) (f : X -> dual) : snd (sumL l f) = sumL l (fun x => snd (f x)).
Proof. induction l as [|x l IH]; [reflexivity|]. cbn. rewrite IH. reflexivity. Qed.
Lemma fst_det m (X : nat -> nat -> dual) : fst (det m X) = det m (fun i j => fst (X i j)).
Proof. apply (@pi_det dual A _ _ fst); reflexivity. Qed.
Lemma jv_det m (X : nat -> nat -> jet3) : j_v (det m X) = det m (fun i j => j_v (X i j)).
Proof. apply (@pi_det jet3 A _ _ j_v); reflexivity. Qed.
(* ---- first and second derivative of the determinant in terms of the inverse N of the matrix ---- *)
Section Inv.
Context (m : nat) (M0 D H N : nat -> nat -> A).
Hypothesis NM : forall i j, i < m -> j < m -> mmul m N M0 i j = delta i j.
Hypothesis MN : forall i j, i < m -> j < m -> mmul m M0 N i j = delta i j.
Let X : nat -> nat -> jet3 := fun i j => (M0 i j, D i j, H i j).
Let P : nat -> nat -> dual := fun i j => (M0 i j, D i j).
Lemma cofN i j : i < m -> j < m -> cofc m M0 i j = N j i * det m M0.
Proof.
  intros Hi Hj. transitivity (sumn m (fun k => N k i * (delta j k * det m M0))).
  - transitivity (sumn m (fun k => N k i * sumn m (fun r => M0 r k * cofc m M0 r j))); [|apply sumn_ext; intros k Hk; rewrite (@cofc_inverse A RA m M0 j k) by assumption; reflexivity].
    transitivity (sumn m (fun r => mmul m M0 N r i * cofc m M0 r j)).
    + rewrite (@sumn_ext A RA m (fun r => mmul m M0 N r i * cofc m M0 r j) (fun r => delta r i * cofc m M0 r j)) by (intros r Hr; rewrite MN by assumption; reflexivity).
      rewrite (@sumn_ext A RA m _ (fun r => cofc m M0 r j * delta r i)) by (intros; ring). rewrite (@sum_delta' A RA m i (fun r => cofc m M0 r j)) by assumption. reflexivity.
    + unfold mmul. rewrite (@sumn_ext A RA m (fun r => sumn m _ * _) (fun r => sumn m (fun k => N k i * (M0 r k * cofc m M0 r j)))); [|intros r _; rewrite <- (@nscale_r A RA); apply sumn_ext; intros; ring].
      rewrite (@sumn_swap A RA). apply sumn_ext. intros k _. rewrite (@nscale A RA). reflexivity.
  - rewrite (@sumn_ext A RA m _ (fun k => N k i * det m M0 * delta j k)) by (intros; ring). rewrite (@sum_delta A RA m j (fun k => N k i * det m M0)) by assumption. reflexivity.
Qed.
Lemma det_first : j_d (det m X) = det m M0 * mtrace m (mmul m N D).
Proof.
  change (j_d (det m X)) with (fst (dde (det m X))). rewrite dde_det. unfold sumn at 1. rewrite fst_sum. unfold mtrace. rewrite <- (@nscale A RA). unfold sumn at 1. apply sumL_ext. intros c Hc. apply in_seq in Hc. rewrite fst_det.
  transitivity (det m (upc M0 c (fun i => D i c))); [apply det_ext; intros i j _ _; unfold upc; destruct (Nat.eqb j c); reflexivity|]. rewrite <- (@cof_col A RA m M0 c) by lia. unfold mmul. rewrite <- (@nscale A RA). apply sumn_ext. intros i Hi. rewrite cofN by lia. ring.
Qed.
Lemma dual_det : @det dual _ m P = (det m M0, det m M0 * mtrace m (mmul m N D)).
Proof. rewrite <- det_first. transitivity (dpi (det m X)); [|unfold dpi; rewrite jv_det; reflexivity]. symmetry. apply (@pi_det jet3 dual _ _ dpi); duals. Qed.
Let Q (i j : nat) : A := snd (@cofc dual _ m P i j).
Lemma cofP i j : @cofc dual _ m P i j = (cofc m M0 i j, Q i j).
Proof.
  apply dual_eq; [|reflexivity]. unfold cofc at 1. rewrite fst_det. unfold cofc. apply det_ext. intros r c _ _. unfold upc, delta. destruct (Nat.eqb c j); [destruct (Nat.eqb r i); reflexivity|reflexivity].
Qed.
Lemma cof1 j k : j < m -> k < m -> sumn m (fun i => D i k * cofc m M0 i j + M0 i k * Q i j) = delta j k * (det m M0 * mtrace m (mmul m N D)).
Proof.
  intros Hj Hk. pose proof (@cofc_inverse dual _ m P j k Hj Hk) as E. apply (f_equal snd) in E. unfold sumn in E. rewrite snd_sum, dual_det in E. unfold sumn. refine (eq_trans _ (eq_trans E _)).
  - apply sumL_ext. intros i _. rewrite cofP. reflexivity.
  - unfold delta. destruct (Nat.eqb j k); cbn; ring.
Qed.
Let B : nat -> nat -> A := mmul m N D.
Let d := det m M0.
Lemma Qis i j : i < m -> j < m -> Q i j = d * (mtrace m B * N j i - mmul m B N j i).
Proof.
  intros Hi Hj. transitivity (sumn m (fun k => N k i * (delta j k * (d * mtrace m B)) - N k i * sumn m (fun r => D r k * cofc m M0 r j))).
  - transitivity (sumn m (fun k => N k i * sumn m (fun r => M0 r k * Q r j))).
    + transitivity (sumn m (fun r => Q r j * delta r i)); [symmetry; apply (@sum_delta' A RA m i (fun r => Q r j)); assumption|].
      rewrite (@sumn_ext A RA m _ (fun r => sumn m (fun k => N k i * (M0 r k * Q r j)))); [rewrite (@sumn_swap A RA); apply sumn_ext; intros k _; rewrite (@nscale A RA); reflexivity|].
      intros r Hr. rewrite <- (MN Hr Hi). unfold mmul. rewrite <- (@nscale A RA). apply sumn_ext. intros k _. ring.
    + apply sumn_ext. intros k Hk. unfold d, B. rewrite <- (@cof1 j k Hj Hk). rewrite (@nadd A RA). ring.
  - rewrite (@sumn_ext A RA m _ (fun k => d * mtrace m B * N k i * delta j k + - (d * (B j k * N k i)))).
    + rewrite (@nadd A RA), (@nopp A RA), (@nscale A RA m d). rewrite (@sum_delta A RA m j (fun k => d * mtrace m B * N k i)) by assumption. unfold mmul. ring.
    + intros k Hk. replace (sumn m (fun r => D r k * cofc m M0 r j)) with (d * B j k); [ring|]. unfold B, mmul. rewrite <- (@nscale A RA). apply sumn_ext. intros r Hr. rewrite cofN by assumption. unfold d. ring.
Qed.
Lemma det_second : j_h (det m X) = d * (mtrace m (mmul m N H) + mtrace m B * mtrace m B - mtrace m (mmul m B B)).
Proof.
  change (j_h (det m X)) with (snd (dde (det m X))). rewrite dde_det. unfold sumn at 1. rewrite snd_sum.
  transitivity (sumn m (fun c => sumn m (fun i => d * (N c i * H i c)) + sumn m (fun i => d * mtrace m B * (N c i * D i c) - d * (mmul m B N c i * D i c)))).
  - unfold sumn at 1. apply sumL_ext. intros c Hc. apply in_seq in Hc. transitivity (snd (sumn m (fun i => @rmul dual _ (D i c, H i c) (@cofc dual _ m P i c)))).
    + f_equal. symmetry. apply (@cof_col dual _ m P c (fun i => (D i c, H i c))). lia.
    + unfold sumn. rewrite snd_sum. rewrite <- (@sumL_add A RA). apply sumL_ext. intros i Hi. apply in_seq in Hi. rewrite cofP. cbn [rmul CRing_dual fst snd]. rewrite Qis, cofN by lia. unfold d. ring.
  - rewrite (@nadd A RA). rewrite (@sumn_ext A RA m (fun c => sumn m (fun i => d * (N c i * H i c))) (fun c => d * mmul m N H c c)) by (intros c _; unfold mmul; rewrite (@nscale A RA); reflexivity).
    rewrite (@sumn_ext A RA m (fun c => sumn m (fun i => d * mtrace m B * (N c i * D i c) - d * (mmul m B N c i * D i c))) (fun c => d * mtrace m B * B c c + - (d * mmul m B B c c))).
    + rewrite (@nadd A RA), (@nopp A RA), !(@nscale A RA). unfold mtrace. ring.
    + intros c Hc. transitivity (sumn m (fun i => d * mtrace m B * (N c i * D i c)) + - (d * sumn m (fun i => mmul m B N c i * D i c))).
      { rewrite <- (@nscale A RA m d), <- (@nopp A RA), <- (@nadd A RA). apply sumn_ext. intros; ring. }
      rewrite (@nscale A RA). f_equal. f_equal. f_equal. unfold mmul at 1. transitivity (sumn m (fun i => sumn m (fun k => B c k * (N k i * D i c)))); [apply sumn_ext; intros i _; rewrite <- (@nscale_r A RA); apply sumn_ext; intros; ring|].
      rewrite (@sumn_swap A RA). unfold mmul. apply sumn_ext. intros k _. rewrite (@nscale A RA). reflexivity.
Qed.
End Inv.
Theorem det_jets m (M : R -> nat -> nat -> A) (M0 D H N : nat -> nat -> A) : (forall i j, i < m -> j < m -> jt (fun t => M t i j) (M0 i j) (D i j) (H i j)) ->
  (forall i j, i < m -> j < m -> mmul m N M0 i j = delta i j) -> (forall i j, i < m -> j < m -> mmul m M0 N i j = delta i j) -> let B := mmul m N D in
  jt (fun t => det m (M t)) (det m M0) (det m M0 * mtrace m B) (det m M0 * (mtrace m (mmul m N H) + mtrace m B * mtrace m B - mtrace m (mmul m B B))).
Proof.
  intros HJ H1 H2 B. eapply jt_eq; [apply (@det_jt m M (fun i j => (M0 i j, D i j, H i j))); exact HJ|..].
  - rewrite jv_det. reflexivity.
  - apply det_first; assumption.
  - apply det_second; assumption.
Qed.
End DetJet.
