(* Jet.v : second-order Taylor data of a real function of one variable at 0.  Independent specification used to state
   "first and second derivative along a coordinate"; no code is modelled here. *)
From Coq Require Import Reals Lra.
From Coquelicot Require Import Coquelicot.
From Verif Require Export Rules.
Set Implicit Arguments.
Local Open Scope R_scope.

#[export] Instance CRing_R : CRing R := {| r0 := 0%R; r1 := 1%R; radd := Rplus; rmul := Rmult; rsub := Rminus; ropp := Ropp; rth := RTheory |}.

(* phi has value v, derivative d and second derivative h at 0 (phi is differentiable around 0) *)
Definition jet2 (phi : R -> R) (v d h : R) : Prop :=
  phi 0 = v /\ exists phi' : R -> R, locally 0 (fun t => is_derive phi t (phi' t)) /\ phi' 0 = d /\ is_derive phi' 0 h.
(* F has first derivative F1 around y and second derivative f2 at y *)
Definition twice (F F1 : R -> R) (y f2 : R) : Prop := locally y (fun u => is_derive F u (F1 u)) /\ is_derive F1 y f2.

Lemma jet2_ext phi psi v d h : (locally 0 (fun t => phi t = psi t)) -> jet2 phi v d h -> jet2 psi v d h.
Proof.
  intros HE [H0 (p & H1 & H2 & H3)]. split.
  - rewrite <- H0. symmetry. apply (locally_singleton _ _ HE).
  - exists p. split; [|auto]. pose proof (locally_locally _ _ HE) as HE'. generalize (filter_and _ _ HE' H1). apply filter_imp. intros t [Ht1 Ht2].
    apply (is_derive_ext_loc phi); auto.
Qed.
Lemma jet2_eq phi v d h v' d' h' : jet2 phi v d h -> v = v' -> d = d' -> h = h' -> jet2 phi v' d' h'.
Proof. intros H -> -> ->. exact H. Qed.
Lemma jet2_const c : jet2 (fun _ => c) c 0 0.
Proof. split; [reflexivity|]. exists (fun _ => 0). split; [apply filter_forall; intros t; apply @is_derive_const|]. split; [reflexivity|apply @is_derive_const]. Qed.
Lemma jet2_line x w : jet2 (fun t => x + t * w) x w 0.
Proof.
  split; [ring|]. exists (fun _ => w). split; [|split; [reflexivity|apply @is_derive_const]].
  apply filter_forall. intros t. auto_derive; auto. ring.
Qed.
Lemma jet2_plus phi psi v d h v' d' h' : jet2 phi v d h -> jet2 psi v' d' h' -> jet2 (fun t => phi t + psi t) (v + v') (d + d') (h + h').
Proof.
  intros [H0 (p & H1 & H2 & H3)] [G0 (q & G1 & G2 & G3)]. split; [congruence|]. exists (fun t => p t + q t). split; [|split].
  - generalize (filter_and _ _ H1 G1). apply filter_imp. intros t [A B]. apply @is_derive_plus; auto.
  - congruence.
  - apply @is_derive_plus; auto.
Qed.
Lemma jet2_opp phi v d h : jet2 phi v d h -> jet2 (fun t => - phi t) (- v) (- d) (- h).
Proof.
  intros [H0 (p & H1 & H2 & H3)]. split; [congruence|]. exists (fun t => - p t). split; [|split].
  - revert H1. apply filter_imp. intros t A. apply @is_derive_opp; auto.
  - congruence.
  - apply @is_derive_opp; auto.
Qed.
Lemma jet2_mult phi psi v d h v' d' h' : jet2 phi v d h -> jet2 psi v' d' h' ->
  jet2 (fun t => phi t * psi t) (v * v') (d * v' + v * d') (h * v' + 2 * d * d' + v * h').
Proof.
  intros [H0 (p & H1 & H2 & H3)] [G0 (q & G1 & G2 & G3)]. split; [congruence|]. exists (fun t => p t * psi t + phi t * q t). split; [|split].
  - generalize (filter_and _ _ H1 G1). apply filter_imp. intros t [A B].
    apply (is_derive_mult phi psi t (p t) (q t) A B). intros n m. apply Rmult_comm.
  - congruence.
  - pose proof (locally_singleton _ _ H1) as A. pose proof (locally_singleton _ _ G1) as B.
    assert (D1 : is_derive (fun t => p t * psi t) 0 (h * psi 0 + p 0 * q 0)) by (apply (is_derive_mult p psi 0 h (q 0) H3 B); intros n m; apply Rmult_comm).
    assert (D2 : is_derive (fun t => phi t * q t) 0 (p 0 * q 0 + phi 0 * h')) by (apply (is_derive_mult phi q 0 (p 0) h' A G3); intros n m; apply Rmult_comm).
    replace (h * v' + 2 * d * d' + v * h') with ((h * psi 0 + p 0 * q 0) + (p 0 * q 0 + phi 0 * h')) by (rewrite H0, G0, H2, G2; ring).
    apply (is_derive_plus _ _ _ _ _ D1 D2).
Qed.
Lemma jet2_scal c phi v d h : jet2 phi v d h -> jet2 (fun t => c * phi t) (c * v) (c * d) (c * h).
Proof. intros H. eapply jet2_eq; [apply (jet2_mult (jet2_const c) H)| | |]; ring. Qed.
Lemma jet2_cont phi v d h : jet2 phi v d h -> continuous phi 0.
Proof. intros [_ (p & H1 & _ & _)]. apply @ex_derive_continuous. exists (p 0). apply (locally_singleton _ _ H1). Qed.
Lemma jet2_comp F F1 f2 phi v d h : jet2 phi v d h -> twice F F1 v f2 ->
  jet2 (fun t => F (phi t)) (F v) (F1 v * d) (f2 * (d * d) + F1 v * h).
Proof.
  intros HJ [HF1 HF2]. pose proof (jet2_cont HJ) as HC. destruct HJ as [H0 (p & H1 & H2 & H3)]. split; [congruence|]. exists (fun t => F1 (phi t) * p t). split; [|split].
  - unfold continuous in HC. rewrite H0 in HC. specialize (HC _ HF1). unfold filtermap in HC. generalize (filter_and _ _ H1 HC). apply filter_imp. intros t [A B].
    rewrite Rmult_comm. apply (is_derive_comp F phi t (F1 (phi t)) (p t) B A).
  - congruence.
  - pose proof (locally_singleton _ _ H1) as A. rewrite <- H0 in HF2.
    assert (D1 : is_derive (fun t => F1 (phi t)) 0 (p 0 * f2)) by (apply (is_derive_comp F1 phi 0 f2 (p 0) HF2 A)).
    replace (f2 * (d * d) + F1 v * h) with ((p 0 * f2) * p 0 + F1 (phi 0) * h) by (rewrite H0, H2; ring).
    apply (is_derive_mult (fun t => F1 (phi t)) p 0 _ _ D1 H3). intros n m. apply Rmult_comm.
Qed.
Lemma jet2_unique phi v d h v' d' h' : jet2 phi v d h -> jet2 phi v' d' h' -> v = v' /\ d = d' /\ h = h'.
Proof.
  intros [H0 (p & H1 & H2 & H3)] [G0 (q & G1 & G2 & G3)]. split; [congruence|].
  assert (E : locally 0 (fun t => p t = q t)).
  { generalize (filter_and _ _ H1 G1). apply filter_imp. intros t [A B]. apply is_derive_unique in A, B. congruence. }
  split; [rewrite <- H2, <- G2; apply (locally_singleton _ _ E)|].
  assert (D : is_derive q 0 h) by (apply (is_derive_ext_loc p); auto). apply is_derive_unique in D, G3. congruence.
Qed.
(* rescaling the parameter *)
Lemma jet2_rescale phi v d h w : jet2 phi v d h -> jet2 (fun t => phi (t * w)) v (w * d) (w * w * h).
Proof.
  intros [H0 (p & H1 & H2 & H3)].
  assert (HC : forall t, is_derive (fun t => t * w) t w) by (intros t; auto_derive; auto; ring).
  assert (H0w : phi (0 * w) = v) by (rewrite Rmult_0_l; exact H0). split; [exact H0w|]. exists (fun t => w * p (t * w)). split; [|split].
  - assert (HL : locally 0 (fun t => is_derive phi (t * w) (p (t * w)))).
    { assert (C : continuous (fun t => t * w) 0) by (apply @ex_derive_continuous; exists w; apply HC). unfold continuous in C. rewrite Rmult_0_l in C. apply (C _ H1). }
    revert HL. apply filter_imp. intros t A. apply (is_derive_comp phi (fun t => t * w) t _ _ A (HC t)).
  - rewrite Rmult_0_l, H2. ring.
  - assert (H3' : is_derive p (0 * w) h) by (rewrite Rmult_0_l; exact H3).
    pose proof (is_derive_comp p (fun t => t * w) 0 _ _ H3' (HC 0)) as D. replace (w * w * h) with (w * (w * h)) by ring. apply is_derive_scal with (k := w) in D. exact D.
Qed.

(* finite sums *)
Lemma jet2_sumL {X} (l : list X) (phi : X -> R -> R) (v d h : X -> R) : (forall x, In x l -> jet2 (phi x) (v x) (d x) (h x)) ->
  jet2 (fun t => sumL l (fun x => phi x t)) (sumL l v) (sumL l d) (sumL l h).
Proof.
  induction l as [|x l IH]; intros H; cbn.
  - apply jet2_const.
  - apply jet2_plus; [apply H; left; reflexivity|]. apply IH. intros y Hy. apply H. right. exact Hy.
Qed.
Lemma jet2_sumn n (phi : nat -> R -> R) (v d h : nat -> R) : (forall k, (k < n)%nat -> jet2 (phi k) (v k) (d k) (h k)) ->
  jet2 (fun t => sumn n (fun k => phi k t)) (sumn n v) (sumn n d) (sumn n h).
Proof. intros H. apply (@jet2_sumL nat (seq 0 n) phi v d h). intros k Hk. apply in_seq in Hk. apply H. lia. Qed.

(* second-order Taylor data of curves in a commutative ring: the reals, and the complex numbers component by component *)
Class Jet (A : Type) {RA : CRing A} := {
  jt : (R -> A) -> A -> A -> A -> Prop;
  jt_ext : forall phi psi v d h, locally 0 (fun t => phi t = psi t) -> jt phi v d h -> jt psi v d h;
  jt_const : forall c, jt (fun _ => c) c r0 r0;
  jt_add : forall phi psi v d h v' d' h', jt phi v d h -> jt psi v' d' h' -> jt (fun t => radd (phi t) (psi t)) (radd v v') (radd d d') (radd h h');
  jt_mul : forall phi psi v d h v' d' h', jt phi v d h -> jt psi v' d' h' ->
    jt (fun t => rmul (phi t) (psi t)) (rmul v v') (radd (rmul d v') (rmul v d')) (radd (radd (rmul h v') (rmul (radd r1 r1) (rmul d d'))) (rmul v h')) }.
Section JetFacts.
Context {A : Type} {RA : CRing A} {JA : @Jet A RA}.
Add Ring Aring_Jet : (@rth A RA).
Lemma jt_eq phi v d h v' d' h' : jt phi v d h -> v = v' -> d = d' -> h = h' -> jt phi v' d' h'.
Proof. intros H -> -> ->. exact H. Qed.
Lemma jt_scal c phi v d h : jt phi v d h -> jt (fun t => rmul c (phi t)) (rmul c v) (rmul c d) (rmul c h).
Proof. intros H. eapply jt_eq; [eapply jt_mul; [apply (jt_const c)|exact H]|reflexivity|ring|ring]. Qed.
Lemma jt_sumL {X} (l : list X) (phi : X -> R -> A) (v d h : X -> A) : (forall x, In x l -> jt (phi x) (v x) (d x) (h x)) ->
  jt (fun t => sumL l (fun x => phi x t)) (sumL l v) (sumL l d) (sumL l h).
Proof.
  induction l as [|x l IH]; intros H; cbn.
  - apply jt_const.
  - apply jt_add; [apply H; left; reflexivity|]. apply IH. intros y Hy. apply H. right. exact Hy.
Qed.
Lemma jt_sumn n (phi : nat -> R -> A) (v d h : nat -> A) : (forall k, (k < n)%nat -> jt (phi k) (v k) (d k) (h k)) ->
  jt (fun t => sumn n (fun k => phi k t)) (sumn n v) (sumn n d) (sumn n h).
Proof. intros H. apply (@jt_sumL nat (seq 0 n) phi v d h). intros k Hk. apply in_seq in Hk. apply H. lia. Qed.
End JetFacts.
Lemma jet2_mul2 phi psi v d h v' d' h' : jet2 phi v d h -> jet2 psi v' d' h' ->
  jet2 (fun t => phi t * psi t) (v * v') (d * v' + v * d') (h * v' + (1 + 1) * (d * d') + v * h').
Proof. intros H1 H2. eapply jet2_eq; [exact (jet2_mult H1 H2)|reflexivity|reflexivity|ring]. Qed.
#[export] Instance Jet_R : @Jet R CRing_R := {| jt := jet2; jt_ext := jet2_ext; jt_const := jet2_const; jt_add := jet2_plus; jt_mul := jet2_mul2 |}.
