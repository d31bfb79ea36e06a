(* CplxFun.v : elementwise functions of complex numbers.  The functions registered at wrapped_functions.py:297-442 that accept complex arguments, written
   with +, *, 1/z, exp and log; their derivatives; and the proof that those are the derivatives along every curve. *)
From Coq Require Import Reals Lra.
From Coquelicot Require Import Coquelicot.
From Verif Require Export CplxEnc Cplx CalcFun.
Set Implicit Arguments.
Local Open Scope R_scope.

(* |z|^2 *)
Definition n2 (z : R * R) : R := fst z * fst z + snd z * snd z.
(* 1/z (jax.lax.div) *)
Definition cinv (z : R * R) : R * R := (fst z / n2 z, - snd z / n2 z).
(* jax.lax.exp *)
Definition cexp (z : R * R) : R * R := (exp (fst z) * cos (snd z), exp (fst z) * sin (snd z)).
(* the principal argument of a number off the branch cut (-oo, 0] *)
Definition carg (z : R * R) : R := if Rlt_dec 0 (fst z) then atan (snd z / fst z) else if Rlt_dec 0 (snd z) then PI / 2 - atan (fst z / snd z) else - (PI / 2) - atan (fst z / snd z).
(* jax.lax.log *)
Definition cln (z : R * R) : R * R := (ln (n2 z) / 2, carg z).
(* off the branch cut *)
Definition slit (z : R * R) : Prop := 0 < fst z \/ snd z <> 0.

(* F has derivative f1 and second derivative f2 at z: the second-order chain rule holds along every curve through z *)
Definition ctw (F : R * R -> R * R) (f1 f2 : R * R) (z : R * R) : Prop :=
  forall phi d h, jetC phi z d h -> jetC (fun t => F (phi t)) (F z) (rmul f1 d) (radd (rmul f2 (rmul d d)) (rmul f1 h)).
Lemma n2_pos z : z <> (0, 0) -> 0 < n2 z.
Proof. destruct z as [x y]. unfold n2. cbn [fst snd]. intros H. destruct (Req_dec x 0) as [->|Hx]; [destruct (Req_dec y 0) as [->|Hy]; [congruence|]|]; nra. Qed.
Lemma slit_nz z : slit z -> z <> (0, 0).
Proof. intros [H|H] ->; cbn in H; lra. Qed.
Lemma cinv_ctw z : z <> (0, 0) -> ctw cinv (ropp (rmul (cinv z) (cinv z))) (rmul (radd r1 r1) (rmul (cinv z) (rmul (cinv z) (cinv z)))) z.
Proof.
  intros Hz phi d h [H1 H2]. pose proof (n2_pos Hz) as HN. destruct z as [x y], d as [d1 d2], h as [h1 h2]. unfold n2 in HN. cbn [fst snd] in *.
  pose proof (jet2_plus (jet2_mult H1 H1) (jet2_mult H2 H2)) as HJ. assert (HN0 : x * x + y * y <> 0) by lra. pose proof (jet2_comp HJ (inv_twice HN0)) as HI.
  split; unfold cinv, n2; cbn [fst snd radd rmul rsub r0 r1 ropp CRing_CR CRing_C cadd cmul copp CRing_R].
  - eapply jet2_eq; [exact (jet2_mult H1 HI)|reflexivity|..]; cbv beta; field; exact HN0.
  - eapply jet2_eq; [exact (jet2_mult (jet2_opp H2) HI)|reflexivity|..]; cbv beta; field; exact HN0.
Qed.

Lemma cexp_ctw z : ctw cexp (cexp z) (cexp z) z.
Proof.
  intros phi d h [H1 H2]. destruct z as [x y], d as [d1 d2], h as [h1 h2]. cbn [fst snd] in *.
  pose proof (jet2_comp H1 (un_twice UExp x I)) as HE. pose proof (jet2_comp H2 (un_twice UCos y I)) as HC. pose proof (jet2_comp H2 (un_twice USin y I)) as HS. cbn [un_f un_1 un_2] in HE, HC, HS.
  split; unfold cexp; cbn [fst snd radd rmul rsub r0 r1 ropp CRing_CR CRing_C cadd cmul copp CRing_R].
  - eapply jet2_eq; [exact (jet2_mult HE HC)|reflexivity|..]; ring.
  - eapply jet2_eq; [exact (jet2_mult HE HS)|reflexivity|..]; ring.
Qed.
Lemma carg_up x y : 0 < y -> carg (x, y) = PI / 2 - atan (x / y).
Proof.
  intros Hy. unfold carg. cbn [fst snd]. destruct (Rlt_dec 0 x) as [Hx|Hx]; [|destruct (Rlt_dec 0 y); [reflexivity|lra]].
  rewrite <- atan_inv by (apply Rdiv_lt_0_compat; assumption). f_equal. field. lra.
Qed.
Lemma carg_down x y : y < 0 -> carg (x, y) = - (PI / 2) - atan (x / y).
Proof.
  intros Hy. unfold carg. cbn [fst snd]. destruct (Rlt_dec 0 x) as [Hx|Hx]; [|destruct (Rlt_dec 0 y); [lra|reflexivity]].
  replace (y / x) with (- (/ (x / - y))) by (field; lra). rewrite atan_opp, atan_inv by (apply Rdiv_lt_0_compat; lra). replace (x / - y) with (- (x / y)) by (field; lra). rewrite atan_opp. ring.
Qed.
Lemma carg_right x y : 0 < x -> carg (x, y) = atan (y / x).
Proof. intros Hx. unfold carg. cbn [fst snd]. destruct (Rlt_dec 0 x); [reflexivity|lra]. Qed.
Lemma atan_jet a b x y u v h k : jet2 a x u h -> jet2 b y v k -> y <> 0 -> jet2 (fun t => atan (a t / b t)) (atan (x / y)) ((u * y - x * v) / (x * x + y * y))
  ((h * y - x * k) / (x * x + y * y) - 2 * (u * y - x * v) * (x * u + y * v) / ((x * x + y * y) * (x * x + y * y))).
Proof.
  intros H1 H2 Hy. pose proof (jet2_comp (jet2_mult H1 (jet2_comp H2 (inv_twice Hy))) (un_twice UAtan _ I)) as HX. cbn [un_f un_1 un_2] in HX. unfold Rdiv at 1 2.
  assert (HN : x * x + y * y <> 0) by nra. assert (HM : 1 + x * / y * (x * / y) <> 0) by nra.
  eapply jet2_eq; [exact HX|reflexivity|..]; field; repeat split; auto; nra.
Qed.
Lemma cln_ctw z : slit z -> ctw cln (cinv z) (ropp (rmul (cinv z) (cinv z))) z.
Proof.
  intros Hz phi d h [H1 H2]. pose proof (n2_pos (slit_nz Hz)) as HN. destruct z as [x y], d as [d1 d2], h as [h1 h2]. unfold n2 in HN. cbn [fst snd] in *.
  pose proof (jet2_plus (jet2_mult H1 H1) (jet2_mult H2 H2)) as HJ. assert (HN0 : x * x + y * y <> 0) by lra. pose proof (jet2_comp HJ (un_twice ULog _ HN)) as HL. cbn [un_f un_1 un_2] in HL.
  split; unfold cln, cinv, n2; cbn [fst snd radd rmul rsub r0 r1 ropp CRing_CR CRing_C cadd cmul copp CRing_R].
  - unfold Rdiv at 1. eapply jet2_eq; [exact (jet2_mult HL (jet2_const (/ 2)))|reflexivity|..]; field; exact HN0.
  - unfold slit in Hz. cbn [fst snd] in Hz. destruct (Rlt_dec 0 x) as [Hx|Hx].
    + rewrite carg_right by exact Hx. apply jet2_ext with (phi := fun t => atan (snd (phi t) / fst (phi t))).
      * generalize (jet2_pos H1 Hx). apply filter_imp. intros t Ht. destruct (phi t) as [a b]. symmetry. apply carg_right. exact Ht.
      * assert (Hx0 : x <> 0) by lra. eapply jet2_eq; [exact (atan_jet H2 H1 Hx0)|reflexivity|..]; field; repeat split; auto; intro; lra.
    + destruct (Rlt_dec 0 y) as [Hy|Hy].
      * rewrite carg_up by exact Hy. apply jet2_ext with (phi := fun t => PI / 2 + - atan (fst (phi t) / snd (phi t))).
        -- generalize (jet2_pos H2 Hy). apply filter_imp. intros t Ht. destruct (phi t) as [a b]. symmetry. apply carg_up. exact Ht.
        -- assert (Hy0 : y <> 0) by lra. eapply jet2_eq; [exact (jet2_plus (jet2_const (PI / 2)) (jet2_opp (atan_jet H1 H2 Hy0)))|reflexivity|..]; field; auto.
      * assert (Hy1 : 0 < - y) by (destruct Hz; lra). rewrite carg_down by lra. apply jet2_ext with (phi := fun t => - (PI / 2) + - atan (fst (phi t) / snd (phi t))).
        -- generalize (jet2_pos (jet2_opp H2) Hy1). apply filter_imp. intros t Ht. destruct (phi t) as [a b]. symmetry. apply carg_down. cbn in Ht |- *. lra.
        -- assert (Hy0 : y <> 0) by lra. eapply jet2_eq; [exact (jet2_plus (jet2_const (- (PI / 2))) (jet2_opp (atan_jet H1 H2 Hy0)))|reflexivity|..]; field; auto.
Qed.

Ltac cc := cbn [fst snd radd rmul rsub r0 r1 ropp CRing_CR CRing_C CRing_R]; unfold cadd, cmul, csub, copp; cbn [fst snd radd rmul rsub r0 r1 ropp CRing_R].
(* ---- expressions ---- *)
Inductive cfun := EVar (k : nat) | ECst (c : R * R) | EAdd (x y : cfun) | EMul (x y : cfun) | EInv (x : cfun) | EExp (x : cfun) | ELn (x : cfun).
Add Ring Cring_fun : (@rth (R * R) CRing_CR).
(* value *)
Fixpoint cval (e : cfun) (v : list (R * R)) : R * R :=
  match e with EVar k => nth k v r0 | ECst c => c | EAdd x y => radd (cval x v) (cval y v) | EMul x y => rmul (cval x v) (cval y v) | EInv x => cinv (cval x v) | EExp x => cexp (cval x v) | ELn x => cln (cval x v) end.
(* complex partial derivative in variable a *)
Fixpoint cder (e : cfun) (v : list (R * R)) (a : nat) : R * R :=
  match e with
  | EVar k => if Nat.eqb a k then r1 else r0 | ECst c => r0 | EAdd x y => radd (cder x v a) (cder y v a) | EMul x y => radd (rmul (cder x v a) (cval y v)) (rmul (cval x v) (cder y v a))
  | EInv x => rmul (ropp (rmul (cinv (cval x v)) (cinv (cval x v)))) (cder x v a) | EExp x => rmul (cexp (cval x v)) (cder x v a) | ELn x => rmul (cinv (cval x v)) (cder x v a)
  end.
(* complex second partial derivative in variables a and b *)
Fixpoint cder2 (e : cfun) (v : list (R * R)) (a b : nat) : R * R :=
  let un f1 f2 x := radd (rmul f2 (rmul (cder x v a) (cder x v b))) (rmul f1 (cder2 x v a b)) in
  match e with
  | EVar _ | ECst _ => r0 | EAdd x y => radd (cder2 x v a b) (cder2 y v a b)
  | EMul x y => radd (radd (rmul (cder2 x v a b) (cval y v)) (radd (rmul (cder x v a) (cder y v b)) (rmul (cder x v b) (cder y v a)))) (rmul (cval x v) (cder2 y v a b))
  | EInv x => let i := cinv (cval x v) in un (ropp (rmul i i)) (rmul (radd r1 r1) (rmul i (rmul i i))) x
  | EExp x => un (cexp (cval x v)) (cexp (cval x v)) x
  | ELn x => let i := cinv (cval x v) in un i (ropp (rmul i i)) x
  end.
(* where the expression is holomorphic: no division by zero, no logarithm on the branch cut *)
Fixpoint cdom (e : cfun) (v : list (R * R)) : Prop :=
  match e with EVar _ | ECst _ => True | EAdd x y | EMul x y => cdom x v /\ cdom y v | EInv x => cdom x v /\ cval x v <> (0, 0) | EExp x => cdom x v | ELn x => cdom x v /\ slit (cval x v) end.
(* the expression has at most m variables *)
Fixpoint cvars (m : nat) (e : cfun) : bool :=
  match e with EVar k => (k <? m)%nat | ECst _ => true | EAdd x y | EMul x y => cvars m x && cvars m y | EInv x | EExp x | ELn x => cvars m x end.
Section Sums.
Context (m : nat) (D : nat -> R * R).
Definition lsum (g : nat -> R * R) : R * R := sumn m (fun a => rmul (g a) (D a)).
Definition qsum (g : nat -> nat -> R * R) : R * R := sumn m (fun a => sumn m (fun b => rmul (g a b) (rmul (D a) (D b)))).
Lemma lsum_ext g g' : (forall a, g a = g' a) -> lsum g = lsum g'. Proof. intros H. apply sumn_ext. intros a _. rewrite H. reflexivity. Qed.
Lemma qsum_ext g g' : (forall a b, g a b = g' a b) -> qsum g = qsum g'. Proof. intros H. apply sumn_ext. intros a _. apply sumn_ext. intros b _. rewrite H. reflexivity. Qed.
Lemma lsum_add g g' : lsum (fun a => radd (g a) (g' a)) = radd (lsum g) (lsum g').
Proof. unfold lsum, sumn. rewrite <- sumL_add. apply sumL_ext. intros a _. ring. Qed.
Lemma lsum_scale c g : lsum (fun a => rmul c (g a)) = rmul c (lsum g).
Proof. unfold lsum, sumn. rewrite <- sumL_scale. apply sumL_ext. intros a _. ring. Qed.
Lemma lsum_scale_r c g : lsum (fun a => rmul (g a) c) = rmul (lsum g) c.
Proof. unfold lsum, sumn. rewrite <- sumL_scale_r. apply sumL_ext. intros a _. ring. Qed.
Lemma qsum_add g g' : qsum (fun a b => radd (g a b) (g' a b)) = radd (qsum g) (qsum g').
Proof. unfold qsum, sumn. rewrite <- sumL_add. apply sumL_ext. intros a _. rewrite <- sumL_add. apply sumL_ext. intros b _. ring. Qed.
Lemma qsum_scale c g : qsum (fun a b => rmul c (g a b)) = rmul c (qsum g).
Proof. unfold qsum, sumn. rewrite <- sumL_scale. apply sumL_ext. intros a _. rewrite <- sumL_scale. apply sumL_ext. intros b _. ring. Qed.
Lemma qsum_scale_r c g : qsum (fun a b => rmul (g a b) c) = rmul (qsum g) c.
Proof. rewrite (qsum_ext _ (fun a b => rmul c (g a b))) by (intros; ring). rewrite qsum_scale. ring. Qed.
Lemma qsum_prod g g' : qsum (fun a b => rmul (g a) (g' b)) = rmul (lsum g) (lsum g').
Proof. unfold qsum, lsum, sumn. rewrite <- sumL_scale_r. apply sumL_ext. intros a _. rewrite <- sumL_scale. apply sumL_ext. intros b _. ring. Qed.
Lemma qsum_zero : qsum (fun _ _ => r0) = r0.
Proof. apply sumn_zero. intros a _. apply sumn_zero. intros b _. ring. Qed.
Lemma lsum_zero : lsum (fun _ => r0) = r0.
Proof. apply sumn_zero. intros a _. ring. Qed.
Lemma lsum_one k : (k < m)%nat -> lsum (fun a => if Nat.eqb a k then r1 else r0) = D k.
Proof. intros Hk. unfold lsum. rewrite (@sumn_single _ CRing_CR m k); [rewrite Nat.eqb_refl; ring|exact Hk|]. intros i _ Hi. destruct (Nat.eqb_spec i k); [congruence|]. ring. Qed.
End Sums.
Theorem cfun_smooth e vs : cvars (length vs) e = true -> cdom e vs -> smooth_fun (cval e) (cder e) (cder2 e) vs.
Proof.
  intros HV HD. unfold smooth_fun. cbv zeta. intros c D H HJ. set (m := length vs) in *.
  change (jt (fun t => cval e (map (fun a => c a t) (seq 0 m))) (cval e vs) (lsum m D (cder e vs)) (radd (lsum m H (cder e vs)) (qsum m D (cder2 e vs)))).
  assert (UN : forall F x f1 f2, ctw F f1 f2 (cval x vs) -> jt (fun t => cval x (map (fun a => c a t) (seq 0 m))) (cval x vs) (lsum m D (cder x vs)) (radd (lsum m H (cder x vs)) (qsum m D (cder2 x vs))) ->
    jt (fun t => F (cval x (map (fun a => c a t) (seq 0 m)))) (F (cval x vs)) (lsum m D (fun a => rmul f1 (cder x vs a))) (radd (lsum m H (fun a => rmul f1 (cder x vs a))) (qsum m D (fun a b => radd (rmul f2 (rmul (cder x vs a) (cder x vs b))) (rmul f1 (cder2 x vs a b)))))).
  { intros F x f1 f2 HF HX. eapply jt_eq; [exact (HF _ _ _ HX)|reflexivity|..].
    - rewrite lsum_scale. reflexivity.
    - rewrite lsum_scale, qsum_add, !qsum_scale, qsum_prod. ring. }
  induction e; cbn [cvars cdom] in HV, HD; cbn [cval cder cder2].
  - apply Nat.ltb_lt in HV. eapply jt_eq; [eapply jt_ext; [|exact (HJ k HV)]|..].
    + apply filter_forall. intros t. symmetry. rewrite (@nth_map_in _ _ (fun a => c a t) (seq 0 m) k 0%nat r0) by (rewrite seq_length; exact HV). rewrite seq_nth by exact HV. reflexivity.
    + reflexivity.
    + change (D k = lsum m D (fun a => if Nat.eqb a k then r1 else r0)). rewrite lsum_one by exact HV. reflexivity.
    + change (H k = radd (lsum m H (fun a => if Nat.eqb a k then r1 else r0)) (qsum m D (fun _ _ => r0))). rewrite lsum_one, qsum_zero by exact HV. ring.
  - eapply jt_eq; [apply jt_const|reflexivity|..].
    + change (r0 = lsum m D (fun _ => r0)). rewrite lsum_zero. reflexivity.
    + change (r0 = radd (lsum m H (fun _ => r0)) (qsum m D (fun _ _ => r0))). rewrite lsum_zero, qsum_zero. ring.
  - apply andb_true_iff in HV. destruct HV as [V1 V2], HD as [D1 D2]. eapply jt_eq; [exact (@jt_add _ _ Jet_C _ _ _ _ _ _ _ _ (IHe1 V1 D1) (IHe2 V2 D2))|reflexivity|..].
    + change (radd (lsum m D (cder e1 vs)) (lsum m D (cder e2 vs)) = lsum m D (fun a => radd (cder e1 vs a) (cder e2 vs a))). rewrite lsum_add. reflexivity.
    + change (radd (radd (lsum m H (cder e1 vs)) (qsum m D (cder2 e1 vs))) (radd (lsum m H (cder e2 vs)) (qsum m D (cder2 e2 vs))) = radd (lsum m H (fun a => radd (cder e1 vs a) (cder e2 vs a))) (qsum m D (fun a b => radd (cder2 e1 vs a b) (cder2 e2 vs a b)))). rewrite lsum_add, qsum_add. ring.
  - apply andb_true_iff in HV. destruct HV as [V1 V2], HD as [D1 D2]. eapply jt_eq; [exact (@jt_mul _ _ Jet_C _ _ _ _ _ _ _ _ (IHe1 V1 D1) (IHe2 V2 D2))|reflexivity|..].
    + match goal with |- ?l = _ => change (l = lsum m D (fun a => radd (rmul (cder e1 vs a) (cval e2 vs)) (rmul (cval e1 vs) (cder e2 vs a)))) end. rewrite lsum_add, lsum_scale, lsum_scale_r. reflexivity.
    + match goal with |- ?l = _ => change (l = radd (lsum m H (fun a => radd (rmul (cder e1 vs a) (cval e2 vs)) (rmul (cval e1 vs) (cder e2 vs a))))
        (qsum m D (fun a b => radd (radd (rmul (cder2 e1 vs a b) (cval e2 vs)) (radd (rmul (cder e1 vs a) (cder e2 vs b)) (rmul (cder e1 vs b) (cder e2 vs a)))) (rmul (cval e1 vs) (cder2 e2 vs a b))))) end.
      rewrite lsum_add, lsum_scale, lsum_scale_r, !qsum_add, qsum_scale, qsum_scale_r, qsum_prod. rewrite (qsum_ext m D (fun a b => rmul (cder e1 vs b) (cder e2 vs a)) (fun a b => rmul (cder e2 vs a) (cder e1 vs b))) by (intros; ring). rewrite qsum_prod. ring.
  - destruct HD as [D1 D2]. apply (UN cinv e _ _ (cinv_ctw D2)). apply IHe; assumption.
  - apply (UN cexp e _ _ (@cexp_ctw (cval e vs))). apply IHe; assumption.
  - destruct HD as [D1 D2]. apply (UN cln e _ _ (cln_ctw D2)). apply IHe; assumption.
Qed.
(* ---- the registered functions (wrapped_functions.py:324-325, 349-363, 437-439), for complex arguments ---- *)
(* i and the constants used below *)
Definition e_i : cfun := ECst (0, 1).
Definition e_c (c : R) : cfun := ECst (c, 0).
Definition e_neg (e : cfun) : cfun := EMul (e_c (-1)) e.
(* jax.lax.exp, log, expm1, log1p *)
Definition c_exp : cfun := EExp (EVar 0).
Definition c_log : cfun := ELn (EVar 0).
Definition c_expm1 : cfun := EAdd (EExp (EVar 0)) (e_c (-1)).
Definition c_log1p : cfun := ELn (EAdd (e_c 1) (EVar 0)).
(* jax.lax.sin, cos, tan *)
Definition c_sin : cfun := EMul (ECst (0, - / 2)) (EAdd (EExp (EMul e_i (EVar 0))) (e_neg (EExp (EMul (e_neg e_i) (EVar 0))))).
Definition c_cos : cfun := EMul (e_c (/ 2)) (EAdd (EExp (EMul e_i (EVar 0))) (EExp (EMul (e_neg e_i) (EVar 0)))).
Definition c_tan : cfun := EMul c_sin (EInv c_cos).
(* jax.lax.tanh, logistic; jax.nn.silu *)
Definition c_tanh : cfun := EMul (EAdd (EExp (EVar 0)) (e_neg (EExp (e_neg (EVar 0))))) (EInv (EAdd (EExp (EVar 0)) (EExp (e_neg (EVar 0))))).
Definition c_logistic : cfun := EInv (EAdd (e_c 1) (EExp (e_neg (EVar 0)))).
Definition c_silu : cfun := EMul (EVar 0) c_logistic.
(* jax.lax.sqrt, rsqrt (off the branch cut) *)
Definition c_sqrt : cfun := EExp (EMul (e_c (/ 2)) (ELn (EVar 0))).
Definition c_rsqrt : cfun := EExp (EMul (e_c (- / 2)) (ELn (EVar 0))).
(* jax.lax.integer_pow *)
Fixpoint c_ipow (k : nat) : cfun := match k with O => e_c 1 | S k' => EMul (EVar 0) (c_ipow k') end.
Definition c_ipow_neg (k : nat) : cfun := EInv (c_ipow k).
(* jax.lax.pow *)
Definition c_pow : cfun := EExp (EMul (EVar 1) (ELn (EVar 0))).
(* sin^2 + cos^2 = 1, sqrt(z)^2 = z: the expressions are the functions they are named after *)
Lemma cexp_add z w : cexp (radd z w) = rmul (cexp z) (cexp w).
Proof. destruct z as [a b], w as [c d]. unfold cexp. cc. rewrite exp_plus, cos_plus, sin_plus. f_equal; ring. Qed.
Lemma cexp_0 : cexp (0, 0) = (1, 0).
Proof. unfold cexp. cc. rewrite exp_0, cos_0, sin_0. f_equal; ring. Qed.
Lemma cexp_cln z : slit z -> cexp (cln z) = z.
Proof.
  intros Hz. pose proof (n2_pos (slit_nz Hz)) as HN. destruct z as [x y]. unfold cexp, cln. cbn [fst snd].
  assert (HE : exp (ln (n2 (x, y)) / 2) = sqrt (n2 (x, y))).
  { apply Rsqr_inj; [left; apply exp_pos|apply sqrt_pos|]. rewrite Rsqr_sqrt by lra. unfold Rsqr. rewrite <- exp_plus. replace (ln (n2 (x, y)) / 2 + ln (n2 (x, y)) / 2) with (ln (n2 (x, y))) by field. apply exp_ln. exact HN. }
  rewrite HE. unfold n2 in *. cbn [fst snd] in *. unfold slit in Hz. cbn [fst snd] in Hz.
  assert (HS : forall u v, 0 < v -> sqrt (u * u + v * v) = v * sqrt (1 + (u / v) ^ 2)).
  { intros u v Hv. replace (u * u + v * v) with ((v * v) * (1 + (u / v) ^ 2)) by (field; lra). rewrite sqrt_mult by nra. rewrite sqrt_square by lra. reflexivity. }
  assert (HP : forall u, 0 < sqrt (1 + u ^ 2)) by (intros u; apply sqrt_lt_R0; nra).
  destruct (Rlt_dec 0 x) as [Hx|Hx].
  - rewrite carg_right by exact Hx. rewrite cos_atan, sin_atan. rewrite (Rplus_comm (x * x)), (HS y x Hx). rewrite !Rsqr_pow2. specialize (HP (y / x)). f_equal; field; lra.
  - destruct (Rlt_dec 0 y) as [Hy|Hy].
    + rewrite carg_up by exact Hy. rewrite cos_shift, sin_shift, cos_atan, sin_atan. rewrite (HS x y Hy). rewrite !Rsqr_pow2. specialize (HP (x / y)). f_equal; field; lra.
    + assert (Hy1 : 0 < - y) by (destruct Hz; lra). rewrite carg_down by lra. replace (- (PI / 2) - atan (x / y)) with (- (PI / 2 - atan (x / - y))) by (replace (x / - y) with (- (x / y)) by (field; lra); rewrite atan_opp; ring).
      rewrite cos_neg, sin_neg, cos_shift, sin_shift, cos_atan, sin_atan. replace (x * x + y * y) with (x * x + - y * - y) by ring. rewrite (HS x (- y) Hy1). rewrite !Rsqr_pow2. specialize (HP (x / - y)). f_equal; field; lra.
Qed.
Theorem c_sqrt_square z : slit z -> rmul (cval c_sqrt [z]) (cval c_sqrt [z]) = z.
Proof.
  intros Hz. cbn [c_sqrt cval nth]. rewrite <- cexp_add. transitivity (cexp (cln z)); [f_equal|apply cexp_cln; exact Hz]. cbn [e_c cval]. destruct (cln z) as [a b]. cc. f_equal; field.
Qed.
Theorem c_real x : cval c_exp [(x, 0)] = (exp x, 0) /\ cval c_sin [(x, 0)] = (sin x, 0) /\ cval c_cos [(x, 0)] = (cos x, 0) /\ cval c_logistic [(x, 0)] = (/ (1 + exp (- x)), 0) /\ (0 < x -> cval c_log [(x, 0)] = (ln x, 0)).
Proof.
  assert (E0 : forall a b, a = b -> exp a = exp b) by (intros; congruence).
  split; [|split; [|split; [|split]]].
  - cbn. unfold cexp. cc. rewrite cos_0, sin_0. f_equal; ring.
  - cbn [c_sin cval nth e_i e_neg e_c]. unfold cexp. cc. replace (0 * x - 1 * 0) with 0 by ring. replace (0 * 0 + 1 * x) with x by ring.
    replace ((-1 * 0 - 0 * 1) * x - (-1 * 1 + 0 * 0) * 0) with 0 by ring. replace ((-1 * 0 - 0 * 1) * 0 + (-1 * 1 + 0 * 0) * x) with (- x) by ring. rewrite exp_0, cos_neg, sin_neg. f_equal; field.
  - cbn [c_cos cval nth e_i e_neg e_c]. unfold cexp. cc. replace (0 * x - 1 * 0) with 0 by ring. replace (0 * 0 + 1 * x) with x by ring.
    replace ((-1 * 0 - 0 * 1) * x - (-1 * 1 + 0 * 0) * 0) with 0 by ring. replace ((-1 * 0 - 0 * 1) * 0 + (-1 * 1 + 0 * 0) * x) with (- x) by ring. rewrite exp_0, cos_neg, sin_neg. f_equal; field.
  - cbn [c_logistic cval nth e_i e_neg e_c]. unfold cexp. cc. replace (-1 * x - 0 * 0) with (- x) by ring. replace (-1 * 0 + 0 * x) with 0 by ring. rewrite cos_0, sin_0.
    pose proof (exp_pos (- x)). unfold cinv, n2. cbn [fst snd]. f_equal; field; nra.
  - intros Hx. cbn. unfold cln, n2. cbn [fst snd]. rewrite carg_right by exact Hx. replace (0 / x) with 0 by (field; lra). rewrite atan_0. f_equal. replace (x * x + 0 * 0) with (x * x) by ring. rewrite ln_mult by assumption. field.
Qed.
