(* Props_Cplx.v : C38, C43, C45 *)
From Coq Require Import Reals Lra.
From Coquelicot Require Import Coquelicot.
From Verif Require Export Cplx Jet.
Set Implicit Arguments.
Open Scope nat_scope.

(* C38. real, imag, conj and the real-to-complex cast commute with densification: for every FwdJacobian (dense or sparse, any index tensor,
   well formed or not) both orders raise together, or give arrays with the same shape and the same entries. *)
Theorem C38_real : forall A (RA : CRing A) (J : jac (A * A)),
  opeq (dense_array (jmap re J)) (option_map (ndmap re) (@dense_array _ CRing_C J)).
Proof. intros A RA J. exact (@dense_array_map (A * A) A CRing_C RA re re_additive J). Qed.
Theorem C38_imag : forall A (RA : CRing A) (J : jac (A * A)),
  opeq (dense_array (jmap im J)) (option_map (ndmap im) (@dense_array _ CRing_C J)).
Proof. intros A RA J. exact (@dense_array_map (A * A) A CRing_C RA im im_additive J). Qed.
Theorem C38_conj : forall A (RA : CRing A) (J : jac (A * A)),
  opeq (@dense_array _ CRing_C (jmap cconj J)) (option_map (ndmap cconj) (@dense_array _ CRing_C J)).
Proof. intros A RA J. exact (@dense_array_map (A * A) (A * A) CRing_C CRing_C cconj conj_additive J). Qed.
Theorem C38_astype_complex : forall A (RA : CRing A) (J : jac A),
  opeq (@dense_array _ CRing_C (jmap to_complex J)) (option_map (ndmap to_complex) (dense_array J)).
Proof. intros A RA J. exact (@dense_array_map A (A * A) RA CRing_C to_complex to_complex_additive J). Qed.
Print Assumptions C38_real.
Print Assumptions C38_imag.
Print Assumptions C38_conj.
Print Assumptions C38_astype_complex.
(* the represented derivatives are mapped as well *)
Theorem C38_entries : forall A (RA : CRing A) (J : jac (A * A)) i p,
  jent (jmap re J) i p = re (@jent _ CRing_C J i p) /\ jent (jmap im J) i p = im (@jent _ CRing_C J i p) /\
  @jent _ CRing_C (jmap cconj J) i p = cconj (@jent _ CRing_C J i p).
Proof.
  intros A RA J i p. split; [|split].
  - exact (@jent_map (A * A) A CRing_C RA re re_additive J i p).
  - exact (@jent_map (A * A) A CRing_C RA im im_additive J i p).
  - exact (@jent_map (A * A) (A * A) CRing_C CRing_C cconj conj_additive J i p).
Qed.
Print Assumptions C38_entries.
(* the same for FwdLaplArrays (api.py:280-308): densifying the mapped triple is mapping the densified triple *)
Theorem C38_arrays : forall A (RA : CRing A) (a : lapl (A * A)),
  let commutes {B} (RB : CRing B) (phi : A * A -> B) := match dense_array (ljac (lmap phi a)), @dense_array _ CRing_C (ljac a) with
    | Some d, Some d' => peq d (jdata (ljac (lmap phi (Lapl (lx a) (Jac d' None) (llap a))))) /\ lx (lmap phi a) = ndmap phi (lx a) /\ llap (lmap phi a) = ndmap phi (llap a)
    | None, None => True | _, _ => False end in
  commutes RA re /\ commutes RA im /\ commutes CRing_C cconj.
Proof.
  intros A RA a commutes. unfold commutes. cbn [lmap ljac lx llap jmap jdata]. split; [|split].
  - generalize (C38_real RA (ljac a)). destruct (dense_array _), (dense_array _); cbn; auto.
  - generalize (C38_imag RA (ljac a)). destruct (dense_array _), (dense_array _); cbn; auto.
  - generalize (C38_conj RA (ljac a)). destruct (dense_array _), (dense_array _); cbn; auto.
Qed.
Print Assumptions C38_arrays.
(* both orders succeed on a sparse complex Jacobian with a repeated input *)
Definition ex_cjac : jac (Z * Z) := Jac (Nd [2; 2] (fun i => match i with [0; 0] => (1, 2)%Z | [0; 1] => (3, -1)%Z | [1; 0] => (5, 7)%Z | _ => (2, 2)%Z end))
  (Some (arr [2; 2] [1; 0; 1; 2]%Z)).
Example C38_run : option_map (@flat Z) (dense_array (jmap re ex_cjac)) = Some [0; 3; 6; 0; 0; 2]%Z /\
  option_map (fun d => flat (ndmap re d)) (@dense_array _ CRing_C ex_cjac) = Some [0; 3; 6; 0; 0; 2]%Z.
Proof. split; vm_compute; reflexivity. Qed.

(* C43. vjp_rc is v^T J for every complex cotangent v (no conjugation), and jacrev of a real-to-complex function is its Jacobian. *)
Theorem C43_pullback : forall A (RA : CRing A) M (J : nat -> nat -> A * A) v j,
  vjp_rc M J v j = @sumn _ CRing_C M (fun o => cmul (v o) (J o j)).
Proof. exact @vjp_rc_spec. Qed.
Theorem C43_jacrev : forall A (RA : CRing A) M (J : nat -> nat -> A * A) o j, o < M -> jacrev_rc M J o j = J o j.
Proof. exact @jacrev_rc_spec. Qed.
Theorem C43_jacrev_real : forall A (RA : CRing A) M (J : nat -> nat -> A) o j, o < M -> jacrev_rr M J o j = J o j.
Proof. exact @jacrev_rr_spec. Qed.
Print Assumptions C43_pullback.
Print Assumptions C43_jacrev.
Print Assumptions C43_jacrev_real.
Example C43_run : vjp_rc 2 (fun o j => (Z.of_nat (o + j), Z.of_nat (o * 3 + 1))) (fun o => (1%Z, Z.of_nat o)) 2 = (1, 8)%Z.
Proof. reflexivity. Qed.

(* jacfwd of a function with Jacobian J is J (columns numbered by the flat input), and hessian gives the second partial derivatives: entry
   (o, j, k) is the derivative in direction k of the entry (o, j) of the Jacobian.  jax.jvp is the derivative along a line. *)
Theorem C43_jacfwd : forall A (RA : CRing A) N M (J : nat -> nat -> A) o j, j < N -> o < M ->
  jacfwd (fun s o => sumn N (fun k => rmul (J o k) (s k))) o j = J o j.
Proof. exact @jacfwd_spec. Qed.
Print Assumptions C43_jacfwd.
Definition line_jvp (g : (nat -> R) -> nat * nat -> R * R) (x s : nat -> R) (e : nat * nat) : R * R :=
  (Derive (fun t => fst (g (fun k => x k + t * s k)%R e)) 0%R, Derive (fun t => snd (g (fun k => x k + t * s k)%R e)) 0%R).
Theorem C43_hessian : forall M (J : (nat -> R) -> nat -> nat -> R * R) (x : nat -> R) o j k (h : R * R), o < M ->
  is_derive (fun t => fst (J (fun i => x i + (if Nat.eqb k i then t else 0))%R o j)) 0%R (fst h) ->
  is_derive (fun t => snd (J (fun i => x i + (if Nat.eqb k i then t else 0))%R o j)) 0%R (snd h) ->
  @hessian_rc R CRing_R line_jvp M J x (o, j) k = h.
Proof.
  intros M J x o j k h Ho H1 H2. unfold hessian_rc, jacfwd, line_jvp. cbn [fst snd]. rewrite (surjective_pairing h).
  assert (E : forall t, (fun k0 => x k0 + t * (if Nat.eqb k k0 then 1 else 0))%R = (fun i => x i + (if Nat.eqb k i then t else 0))%R).
  { intros t. apply FunctionalExtensionality.functional_extensionality. intros i. destruct (Nat.eqb k i); ring. }
  f_equal; apply is_derive_unique; [apply is_derive_ext with (2 := H1)|apply is_derive_ext with (2 := H2)]; intros t; cbn [r1 r0 CRing_R]; rewrite (E t); rewrite jacrev_rc_spec by exact Ho; reflexivity.
Qed.
Print Assumptions C43_hessian.
(* f(x) = x_0^2 x_1 + i x_1^3 has the mixed derivative 2 x_0 *)
Example C43_hessian_met : @hessian_rc R CRing_R line_jvp 1 (fun x _ j => match j with 0 => (2 * x 0%nat * x 1%nat, 0)%R | _ => (x 0%nat * x 0%nat, 3 * x 1%nat * x 1%nat)%R end) (fun k => INR (S k)) (0, 0) 1 = (2, 0)%R.
Proof.
  apply C43_hessian; [lia| |]; cbn [Nat.eqb fst snd]; auto_derive; auto; cbn; ring.
Qed.

(* C45. The sign of a complex determinant.  th i is Im log det along the i-th input direction; the wrapper receives the gradient and the
   Laplacian of log det.  Its result is the gradient and the Laplacian of exp (i Im log det), component by component. *)
Open Scope R_scope.
Lemma twice_cos y : twice cos (fun u => - sin u) y (- cos y).
Proof. split; [apply filter_forall; intros u; apply is_derive_cos|]. auto_derive; [exact I|ring]. Qed.
Lemma twice_sin y : twice sin cos y (- sin y).
Proof. split; [apply filter_forall; intros u; apply is_derive_sin|]. auto_derive; [exact I|ring]. Qed.
Theorem C45_complex_sign : forall n (th : nat -> R -> R) (t0 : R) (J : nat -> R * R) (L : R * R) (h : nat -> R),
  (forall i, (i < n)%nat -> jet2 (th i) t0 (im (J i)) (h i)) -> im L = sumn n h ->
  let s := (cos t0, sin t0) in
  exists hs : nat -> R * R,
  (forall i, (i < n)%nat ->
     jet2 (fun t => cos (th i t)) (fst s) (fst (sign_jac s J i)) (fst (hs i)) /\
     jet2 (fun t => sin (th i t)) (snd s) (snd (sign_jac s J i)) (snd (hs i))) /\
  sign_lapl n s J L = (sumn n (fun i => fst (hs i)), sumn n (fun i => snd (hs i))).
Proof.
  intros n th t0 J L h Hj HL s.
  exists (fun i => (- cos t0 * (im (J i) * im (J i)) + - sin t0 * h i, - sin t0 * (im (J i) * im (J i)) + cos t0 * h i)). split.
  - intros i Hi. specialize (Hj i Hi). split.
    + eapply jet2_eq; [apply (jet2_comp Hj (twice_cos t0))| | |]; cbn; first [reflexivity|ring].
    + eapply jet2_eq; [apply (jet2_comp Hj (twice_sin t0))| | |]; cbn; first [reflexivity|ring].
  - assert (HS : forall c d : R, sumn n (fun i => c * (im (J i) * im (J i)) + d * h i) = c * sumn n (fun i => im (J i) * im (J i)) + d * sumn n h).
    { intros c d. unfold sumn. induction (seq 0 n) as [|x l IH]; cbn [sumL]; [cbn; ring|]. rewrite IH. cbn. ring. }
    cbn [fst snd]. rewrite !HS. unfold sign_lapl, cmul, csub, cI, to_complex, s. cbn [fst snd]. rewrite HL. cbn [radd rmul rsub CRing_R r0 r1].
    f_equal; cbn; ring.
Qed.
Print Assumptions C45_complex_sign.
(* met by the phase t0 + 2 t + 3 t^2 in one direction *)
Example C45_hypotheses_met : exists th J L h, (forall i, (i < 1)%nat -> jet2 (th i) 1 (im (J i)) (h i)) /\ im L = sumn 1 h /\ im L <> 0.
Proof.
  exists (fun _ t => 1 + t * 2 + 3 * (t * t)), (fun _ => (5, 2)), (7, 6), (fun _ => 6). split; [|split; [unfold sumn; cbn; ring|cbn; lra]].
  intros i _. split; [ring|]. exists (fun t => 2 + 6 * t). split; [apply filter_forall; intros t; auto_derive; [exact I|ring]|]. split; [cbn; ring|]. auto_derive; [exact I|ring].
Qed.

(* C21, continued: the formula used by complex_abs_jac_hessian_jac is the second derivative of the modulus *)
Lemma twice_sqrt y : 0 < y -> twice sqrt (fun u => / (2 * sqrt u)) y (- / (4 * (sqrt y * sqrt y * sqrt y))).
Proof.
  intros Hy. split.
  - generalize (locally_interval (fun u => is_derive sqrt u (/ (2 * sqrt u))) y 0 p_infty Hy I). intros HL. apply HL. intros u Hu _. cbn in Hu.
    auto_derive; [exact Hu|]. ring.
  - assert (Hs := sqrt_lt_R0 y Hy). auto_derive; [repeat split; auto; apply Rgt_not_eq; nra|]. field. lra.
Qed.
Theorem C21_abs_derivatives : forall a b (x y u v hx hy : R), jet2 a x u hx -> jet2 b y v hy -> 0 < x * x + y * y ->
  let r := sqrt (x * x + y * y) in
  jet2 (fun t => sqrt (a t * a t + b t * b t)) r ((x * u + y * v) * / r)
    (abs_dd (/ r) (x, y) (u, v) + (x * hx + y * hy) * / r).
Proof.
  intros a b x y u v hx hy Ha Hb Hp r. pose proof (jet2_plus (jet2_mult Ha Ha) (jet2_mult Hb Hb)) as HJ.
  assert (Hr : 0 < r) by (apply sqrt_lt_R0; exact Hp).
  eapply jet2_eq; [apply (jet2_comp HJ (twice_sqrt Hp))| | |]; fold r.
  - reflexivity.
  - field. lra.
  - unfold abs_dd. cbn [fst snd radd rmul rsub CRing_R]. field. lra.
Qed.
Print Assumptions C21_abs_derivatives.
