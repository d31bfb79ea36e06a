(* CplxSlog.v : slogdet of complex matrices (wrapped_functions.py:194-259, custom_hessian.py:11-53) and the derivatives of the phase det/|det| and of
   ln|det| along curves of complex matrices. *)
From Coq Require Import Reals Lra.
From Coquelicot Require Import Coquelicot.
From Verif Require Export CplxAbs SlogCalc DetJet.
Set Implicit Arguments.
Local Open Scope nat_scope.

(* ---- the inverse of a matrix over a commutative ring, given the inverse u of its determinant ---- *)
Section Inv.
Context {A : Type} {RA : CRing A}.
Add Ring Aring_CInv : (@rth A RA).
Local Open Scope cr_scope.
Notation mxA := (nat -> nat -> A).
Lemma gmul_assoc m (X Y Z : mxA) i j : mmul m (mmul m X Y) Z i j = mmul m X (mmul m Y Z) i j.
Proof.
  unfold mmul. transitivity (sumn m (fun k => sumn m (fun l => X i l * Y l k * Z k j))).
  - apply sumn_ext. intros k _. symmetry. apply (@nscale_r A RA).
  - rewrite (@sumn_swap A RA). apply sumn_ext. intros l _. rewrite <- (@nscale A RA). apply sumn_ext. intros k _. ring.
Qed.
Lemma gmul_ext m (X X' Y Y' : mxA) i j : (forall k, (k < m)%nat -> X i k = X' i k) -> (forall k, (k < m)%nat -> Y k j = Y' k j) -> mmul m X Y i j = mmul m X' Y' i j.
Proof. intros H1 H2. unfold mmul. apply sumn_ext. intros k Hk. rewrite H1, H2 by auto. reflexivity. Qed.
Lemma gmul_1l m (X : mxA) i j : (i < m)%nat -> mmul m delta X i j = X i j.
Proof. intros Hi. unfold mmul. rewrite <- (@sum_delta A RA m i (fun k => X k j) Hi). apply sumn_ext. intros k _. ring. Qed.
Lemma gmul_1r m (X : mxA) i j : (j < m)%nat -> mmul m X delta i j = X i j.
Proof. intros Hi. unfold mmul. apply (@sum_delta' A RA m j (fun k => X i k) Hi). Qed.
(* Cramer's rule *)
Definition gminv (u : A) (m : nat) (M : mxA) : mxA := fun j i => cofc m M i j * u.
Lemma gminv_left u m M j k : det m M * u = 1 -> (j < m)%nat -> (k < m)%nat -> mmul m (gminv u m M) M j k = delta j k.
Proof.
  intros Hd Hj Hk. unfold mmul, gminv. transitivity (u * sumn m (fun i => M i k * cofc m M i j)); [rewrite <- (@nscale A RA); apply sumn_ext; intros; ring|].
  rewrite (@cofc_inverse A RA m M j k Hj Hk). transitivity (delta j k * (det m M * u)); [ring|]. rewrite Hd. ring.
Qed.
Lemma grinv_right u m M k i : det m M * u = 1 -> (k < m)%nat -> (i < m)%nat -> mmul m M (fun j i => cofr m M i j * u) k i = delta k i.
Proof.
  intros Hd Hk Hi. unfold mmul. transitivity (u * sumn m (fun j => M k j * cofr m M i j)); [rewrite <- (@nscale A RA); apply sumn_ext; intros; ring|].
  rewrite (@cofr_inverse A RA m M i k Hi Hk). transitivity (delta i k * (det m M * u)); [ring|]. rewrite Hd. unfold delta. rewrite Nat.eqb_sym. ring.
Qed.
Lemma gminv_right u m M k i : det m M * u = 1 -> (k < m)%nat -> (i < m)%nat -> mmul m M (gminv u m M) k i = delta k i.
Proof.
  intros Hd Hk Hi. rewrite <- (@grinv_right u m M k i Hd Hk Hi). apply gmul_ext; auto. intros l Hl. set (N := gminv u m M). set (P := fun j i => cofr m M i j * u).
  change (N l i = P l i). rewrite <- (@gmul_1r m N l i Hi), <- (@gmul_1l m P l i Hl). transitivity (mmul m N (mmul m M P) l i).
  - apply gmul_ext; auto. intros c Hc. symmetry. apply grinv_right; auto.
  - rewrite <- gmul_assoc. apply gmul_ext; auto. intros c Hc. apply gminv_left; auto.
Qed.
End Inv.

(* ---- complex numbers ---- *)
Local Open Scope R_scope.
Notation Cmx := (nat -> nat -> R * R).
Add Ring Cring_slog : (@rth (R * R) CRing_CR).
(* z/|z| *)
Definition csgn (z : R * R) : R * R := (fst z / cmod z, snd z / cmod z).
Lemma cinv_mul z : z <> (0, 0) -> rmul z (cinv z) = r1.
Proof. intros Hz. pose proof (n2_pos Hz) as HN. destruct z as [x y]. unfold cinv, n2 in *. cbn [fst snd] in *. cc. f_equal; field; lra. Qed.
Lemma ln_cmod z : z <> (0, 0) -> ln (cmod z) = ln (n2 z) / 2.
Proof. intros Hz. pose proof (cmod_pos Hz) as HP. rewrite <- (cmod_sq z). rewrite ln_mult by assumption. field. Qed.
Lemma exp_ln_cmod z : z <> (0, 0) -> exp (- ln (cmod z)) = / cmod z.
Proof. intros Hz. rewrite exp_Ropp, exp_ln by (apply cmod_pos; exact Hz). reflexivity. Qed.
Lemma nz_near phi z d h : jetC phi z d h -> z <> (0, 0) -> locally 0 (fun t => phi t <> (0, 0)).
Proof.
  intros [H1 H2] Hz. pose proof (n2_pos Hz) as HN. pose proof (jet2_plus (jet2_mult H1 H1) (jet2_mult H2 H2)) as HJ. generalize (jet2_pos HJ HN). apply filter_imp. intros t Ht E. rewrite E in Ht. cbn in Ht. lra.
Qed.
(* the logarithm of the modulus of a curve with logarithmic derivative q, of derivative k *)
Lemma lnmod_jet phi z q k : jetC phi z (rmul z q) (rmul z (radd k (rmul q q))) -> z <> (0, 0) -> jet2 (fun t => ln (cmod (phi t))) (ln (cmod z)) (fst q) (fst k).
Proof.
  intros HJ Hz. apply jet2_ext with (phi := fun t => ln (n2 (phi t)) * / 2).
  - generalize (nz_near HJ Hz). apply filter_imp. intros t Ht. symmetry. apply ln_cmod. exact Ht.
  - rewrite (ln_cmod Hz). destruct HJ as [H1 H2]. pose proof (n2_pos Hz) as HN. destruct z as [x y], q as [q1 q2], k as [k1 k2]. unfold n2 in *. cbn [fst snd] in *.
    pose proof (jet2_plus (jet2_mult H1 H1) (jet2_mult H2 H2)) as HM. pose proof (jet2_comp HM (un_twice ULog _ HN)) as HL. cbn [un_f un_1 un_2] in HL.
    assert (HN0 : x * x + y * y <> 0) by lra. eapply jet2_eq; [exact (jet2_mult HL (jet2_const (/ 2)))|reflexivity|..]; cc; field; exact HN0.
Qed.
(* the phase of such a curve *)
Lemma csgn_jet phi z q k : jetC phi z (rmul z q) (rmul z (radd k (rmul q q))) -> z <> (0, 0) ->
  jetC (fun t => csgn (phi t)) (csgn z) (rmul (rmul (0, 1) (csgn z)) (snd q, 0)) (rmul (csgn z) (- (snd q * snd q), snd k)).
Proof.
  intros HJ Hz. apply jetC_ext with (phi := fun t => (fst (phi t) * exp (- ln (cmod (phi t))), snd (phi t) * exp (- ln (cmod (phi t))))).
  - generalize (nz_near HJ Hz). apply filter_imp. intros t Ht. rewrite (exp_ln_cmod Ht). reflexivity.
  - pose proof (jet2_comp (jet2_opp (lnmod_jet HJ Hz)) (un_twice UExp _ I)) as HE. cbn [un_f un_1 un_2] in HE. unfold csgn, Rdiv. rewrite <- (exp_ln_cmod Hz). set (g := exp (- ln (cmod z))) in *.
    destruct HJ as [H1 H2]. destruct z as [x y], q as [q1 q2], k as [k1 k2]. cbn [fst snd] in *.
    split; cbn [fst snd].
    + eapply jet2_eq; [exact (jet2_mult H1 HE)|reflexivity|..]; cc; ring.
    + eapply jet2_eq; [exact (jet2_mult H2 HE)|reflexivity|..]; cc; ring.
Qed.
(* jnp.linalg.inv of one complex matrix *)
Definition minvC (m : nat) (M : Cmx) : Cmx := gminv (cinv (det m M)) m M.
Theorem detC_jets m (M : R -> Cmx) (M0 D H : Cmx) : (forall i j, (i < m)%nat -> (j < m)%nat -> jetC (fun t => M t i j) (M0 i j) (D i j) (H i j)) -> det m M0 <> (0, 0) ->
  let N := minvC m M0 in let q := mtrace m (mmul m N D) in let k := rsub (mtrace m (mmul m N H)) (mtrace m (mmul m (mmul m N D) (mmul m N D))) in
  jetC (fun t => det m (M t)) (det m M0) (rmul (det m M0) q) (rmul (det m M0) (radd k (rmul q q))).
Proof.
  intros HJ Hd N q k. pose proof (cinv_mul Hd) as HU.
  pose proof (@det_jets (R * R) CRing_CR Jet_C m M M0 D H N HJ (fun i j Hi Hj => @gminv_left _ CRing_CR _ m M0 i j HU Hi Hj) (fun i j Hi Hj => @gminv_right _ CRing_CR _ m M0 i j HU Hi Hj)) as HX. cbv zeta in HX.
  eapply (@jt_eq (R * R) CRing_CR Jet_C); [exact HX|reflexivity|reflexivity|]. unfold k, q. ring.
Qed.

(* ---- arrays of complex matrices ---- *)
(* the array x with zeros outside its shape *)
Definition tidyC (x : nd (R * R)) : nd (R * R) := Nd (sh x) (fun i => if inbb i (sh x) then at_ x i else (0, 0)).
(* the size of the matrices in the trailing two axes, and the matrix at leading index p *)
Definition msizeC (x : nd (R * R)) : nat := nth (ndim x - 2) (sh x) 0%nat.
(* the matrix at leading index p *)
Definition matC (x : nd (R * R)) (p : ix) : Cmx := mat (tidyC x) p.
(* jnp.linalg.inv, used at wrapped_functions.py:204-232 *)
Definition mat_invC (x : nd (R * R)) : nd (R * R) := Nd (sh x) (fun q => minvC (msizeC x) (matC x (cut2 q)) (nth (length q - 2) q 0%nat) (nth (length q - 1) q 0%nat)).
(* jnp.linalg.slogdet(x)[0], wrapped_functions.py:194-201 *)
Definition phase_det (x : nd (R * R)) : nd (R * R) := Nd (lead x) (fun p => csgn (det (msizeC x) (matC x p))).
(* jnp.linalg.slogdet(x)[1] *)
Definition log_absdetC (x : nd (R * R)) : nd R := Nd (lead x) (fun p => ln (cmod (det (msizeC x) (matC x p)))).
(* wrapped_functions.py:248-256: the sign output, with the Jacobian and the Laplacian of log det replaced by its own.  The data of the Jacobian has shape
   (rows, *sign.shape), so reshape(-1, *sign.shape) is the identity *)
Definition phase_la (b : lapl (R * R)) : lapl (R * R) :=
  let d := jdata (ljac b) in
  Lapl (lx b) (Jac (Nd (sh d) (fun i => sign_jac (at_ (lx b) (tl i)) (fun r => at_ d (r :: tl i)) (hd 0%nat i))) (jidx (ljac b)))
    (Nd (sh (lx b)) (fun p => sign_lapl (rows d) (at_ (lx b) p) (fun r => at_ d (r :: p)) (at_ (llap b) p))).
(* wrapped_functions.py:238-259 slogdet_wrapper for complex matrices: the rule of slogdet gives the Jacobian and Laplacian of log det for the sign output
   (l.220-221, custom_hessian.py:49-51), and their real parts for the log output (l.222, custom_hessian.py:51); the sign output is then corrected.  For a plain
   argument the wrapper returns plain arrays and l.249 raises (the interpreter never calls it with one) *)
Definition slogdet_complex (c2r : bool) (threshold : Z) (v : arg (R * R)) : option (arg (R * R) * arg R) :=
  let* l := wrap_fl (slogdet_rule phase_det mat_invC) c2r 0%Z [v] in
  match l with AL b => Some (AL (phase_la b), AL (Lapl (log_absdetC (aval v)) (jmap re (ljac b)) (ndmap re (llap b)))) | AX _ => None end.

Lemma msizeC_of (x : nd (R * R)) L m : sh x = L ++ [m; m] -> msizeC x = m.
Proof. intros H. unfold msizeC, ndim. rewrite H, app_length. cbn [length]. replace (length L + 2 - 2)%nat with (length L) by lia. rewrite app_nth2, Nat.sub_diag by lia. reflexivity. Qed.
Lemma matC_in (x : nd (R * R)) L m p i j : sh x = L ++ [m; m] -> inb p L -> (i < m)%nat -> (j < m)%nat -> matC x p i j = at_ x (p ++ [i; j]).
Proof. intros H Hp Hi Hj. unfold matC, mat, tidyC. cbn [at_]. rewrite H. assert (E : inbb (p ++ [i; j]) (L ++ [m; m]) = true) by (apply inb_dec; apply inb2; auto). rewrite E. reflexivity. Qed.
Lemma detC_in (x : nd (R * R)) L m p : sh x = L ++ [m; m] -> inb p L -> det m (matC x p) = det m (fun i j => at_ x (p ++ [i; j])).
Proof. intros H Hp. apply det_ext. intros i j Hi Hj. apply (@matC_in x L m p i j H Hp Hi Hj). Qed.
Lemma minvC_same m (M M' : Cmx) i j : (forall i j, M i j = M' i j) -> minvC m M i j = minvC m M' i j.
Proof.
  intros H. unfold minvC, gminv, cofc. rewrite (@det_ext _ CRing_CR m M M') by auto. f_equal. apply det_ext. intros r c _ _. unfold upc. destruct (Nat.eqb c i); auto.
Qed.
Lemma invC_ext1 : @ext1 (R * R) mat_invC.
Proof.
  intros x y H i. cbn [mat_invC at_]. assert (E : msizeC x = msizeC y) by (destruct H as [H _]; unfold msizeC, ndim; rewrite H; reflexivity). rewrite E. apply minvC_same. intros a b. unfold matC, mat, tidyC. cbn [at_].
  destruct H as [H1 H2]. rewrite <- H1. destruct (inbb _ (sh x)) eqn:E1; [apply H2; apply inb_dec; exact E1|reflexivity].
Qed.
Lemma invC_at (x : nd (R * R)) L m p i j : sh x = L ++ [m; m] -> mat (mat_invC x) p i j = minvC m (matC x p) i j.
Proof.
  intros H. unfold mat, mat_invC, cut2. cbn [at_]. rewrite (@msizeC_of x L m H), !app_length. cbn [length]. replace (length p + 2 - 2)%nat with (length p) by lia. replace (length p + 2 - 1)%nat with (S (length p)) by lia.
  rewrite firstn_app, Nat.sub_diag, firstn_all, firstn_O, app_nil_r. rewrite !app_nth2 by lia. rewrite Nat.sub_diag. replace (S (length p) - length p)%nat with 1%nat by lia. reflexivity.
Qed.

(* the Jacobian of the result is dense: threshold 0 (wrapped_functions.py:246) *)
Lemma slog_dense n c2r a L m r : (0 < n)%nat -> vok n (AL a) -> sh (lx a) = L ++ [m; m] -> wrap_fl (slogdet_rule phase_det mat_invC) c2r 0%Z [AL a] = Some (AL r) -> jidx (ljac r) = None.
Proof.
  intros Hn [Hw Hr] Hs H. unfold wrap_fl in H. cbn [als exs flat_map app map sequence canon_axes bind slogdet_rule fn_rule r_axes r_fn r_fl r_custom r_float] in H.
  destruct (jvp_fn _ _ _ _ _ _ _) as [[[y g] l]|] eqn:E; [|discriminate]. cbn [bind] in H. destruct (jhj_trace _ _ _ _ _ _ _ _ _ _) as [h|]; [|discriminate]. cbn [bind] in H.
  destruct (bin radd l h) as [l2|]; [|discriminate]. cbn [bind] in H. assert (EG : ljac r = g) by (injection H as <-; reflexivity). rewrite EG. clear H EG.
  assert (HS : step_ok n (merged (op_logdet phase_det mat_invC) (merge_of [true]) 1 []) [a] (y, g, l) /\ jrow1 g).
  { refine (@fn_first _ _ n (op_logdet phase_det mat_invC) 0%Z 0%Z [AL a] (y, g, l) Hn _ _ _ eq_refl E); [discriminate|intros v [<-|[]]; split; assumption|right; left; reflexivity]. }
  destruct HS as [_ Hg]. destruct (jidx g) as [mk|] eqn:Eg; [exfalso|reflexivity]. assert (Hwk : weak g = true) by (unfold weak; rewrite Eg; reflexivity). specialize (Hg Hwk).
  unfold jvp_fn, parallel_jvp, any_weak, all_weak in E. cbn [existsb forallb length f_op f_kwaxes f_iop] in E. destruct (weak (ljac a)) eqn:Ew; cbn [negb orb andb] in E.
  - change (has INDEXING 0%Z) with false in E. cbn [orb axes_nil Nat.eqb sparse_jvp] in E.
    destruct (@sparse_jvp1_sound _ _ n (merged (op_logdet phase_det mat_invC) (merge_of [true]) 1 []) None a 0%Z 0%Z None (y, g, l) Hn Hw Hr (@struct_full _ _ _ 0%Z [lx a] 0%nat eq_refl) E) as (_ & _ & _ & _ & HT).
    specialize (HT (axes_full (lx a) (fun X => ltac:(unfold ndim in X; rewrite Hs, app_length in X; cbn in X; lia))) Hwk). cbn [fst snd] in HT. lia.
  - assert (HN : [a] <> []) by discriminate. destruct (@dense_jvp_sound _ _ n _ [a] 0%Z None (y, g, l) Hn HN (fun b Hb => match Hb with or_introl X => eq_ind a (fun c => awf n c) Hw b X | or_intror X => match X with end end) (fun X => ltac:(discriminate X)) E) as [_ S2]. cbn [fst snd] in S2. congruence.
Qed.

Lemma trBB_trace (N D : Cmx) m : trBB N m D = mtrace m (mmul m (mmul m N D) (mmul m N D)).
Proof. unfold trBB, mtrace, mmul. apply sumn_ext. intros i _. apply sumn_ext. intros c _. ring. Qed.
Section Track.
Context (n : nat) (c2r : bool) (th : Z) (a : lapl (R * R)) (w : nat -> R -> nd (R * R)) (L : shape) (m : nat).
Hypothesis Hn : (0 < n)%nat.
Hypothesis HT : track n (AL a) w.
Hypothesis Hs : sh (lx a) = L ++ [m; m].
Hypothesis Hd : forall p, inb p L -> det m (matC (lx a) p) <> (0, 0).
Lemma slogC_curve h i p : (i < n)%nat -> jets (lx a) (jent (ljac a) i) (h i) (w i) -> inb p L ->
  forall s t, (s < m)%nat -> (t < m)%nat -> jetC (fun u => matC (w i u) p s t) (matC (lx a) p s t) (jent (ljac a) i (p ++ [s; t])) (h i (p ++ [s; t])).
Proof.
  intros Hi [J1 J2] Hp s t Ht Hu. rewrite (@matC_in (lx a) L m p s t Hs Hp Ht Hu). apply jetC_ext with (phi := fun u => at_ (w i u) (p ++ [s; t])).
  - generalize J1. apply near_imp. intros u Eu. rewrite Hs in Eu. rewrite (@matC_in (w i u) L m p s t Eu Hp Ht Hu). reflexivity.
  - apply J2. rewrite Hs. apply inb2; assumption.
Qed.
(* what the rule of slogdet returns for log det: first and second logarithmic derivatives of the determinant *)
Lemma slogC_main b : wrap_fl (slogdet_rule phase_det mat_invC) c2r 0%Z [AL a] = Some (AL b) -> jwf n L (ljac b) /\ jidx (ljac b) = None /\ lx b = phase_det (lx a) /\ sh (llap b) = L /\
  exists k : nat -> ix -> R * R, (forall i p, (i < n)%nat -> inb p L -> jetC (fun t => det m (matC (w i t) p)) (det m (matC (lx a) p)) (rmul (det m (matC (lx a) p)) (jent (ljac b) i p))
      (rmul (det m (matC (lx a) p)) (radd (k i p) (rmul (jent (ljac b) i p) (jent (ljac b) i p))))) /\ forall p, inb p L -> at_ (llap b) p = sumn n (fun i => k i p).
Proof.
  intros H. destruct HT as (T1 & T2 & h & T3 & T4). pose proof (@slog_dense n c2r a L m b Hn (conj T1 T2) Hs H) as HD.
  assert (HW : slogdet_wrapper phase_det phase_det mat_invC c2r th (AL a) = Some (AX (phase_det (lx a)), AL b)) by (unfold slogdet_wrapper; rewrite H; reflexivity).
  destruct (@slogdet_sound _ CRing_CR phase_det phase_det mat_invC n c2r th a L m _ Hn (conj T1 T2) Hs invC_ext1 (fun x Hx => Hx) HW) as (_ & b' & Eb & E3 & E4). cbn [snd] in Eb. assert (E : b = b') by congruence. subst b'. clear Eb.
  pose proof (@logdet_forms _ CRing_CR phase_det mat_invC n a b L m Hn Hs E3) as [F1 F2]. destruct E3 as (V1 & [V2 V2'] & _). rewrite F1 in V2, V2'. split; [exact V2|]. split; [exact HD|].
  split; [rewrite V1; reflexivity|]. split; [exact V2'|]. pose (N p := minvC m (matC (lx a) p)). pose (Dm i p := (fun s t => jent (ljac a) i (p ++ [s; t])) : Cmx). pose (Hm i p := (fun s t => h i (p ++ [s; t])) : Cmx).
  exists (fun i p => rsub (mtrace m (mmul m (N p) (Hm i p))) (mtrace m (mmul m (mmul m (N p) (Dm i p)) (mmul m (N p) (Dm i p))))). split.
  - intros i p Hi Hp. destruct (F2 p Hp) as (_ & F3 & _). assert (EJ : jent (ljac b) i p = mtrace m (mmul m (N p) (Dm i p))).
    { rewrite F3. unfold mtrace, mmul. apply sumn_ext. intros s _. apply sumn_ext. intros t _. rewrite (@invC_at (lx a) L m p s t Hs). reflexivity. }
    rewrite EJ. apply (@detC_jets m (fun t => matC (w i t) p) (matC (lx a) p) (Dm i p) (Hm i p)); [|apply Hd; exact Hp]. apply (@slogC_curve h i p Hi (T3 i Hi) Hp).
  - intros p Hp. destruct (F2 p Hp) as (_ & _ & F4). rewrite F4. set (NN := mat (mat_invC (lx a)) p).
    assert (EN : forall s t, NN s t = N p s t) by (intros s t; apply (@invC_at (lx a) L m p s t Hs)).
    transitivity (rsub (sumn n (fun i => mtrace m (mmul m (N p) (Hm i p)))) (sumn n (fun i => mtrace m (mmul m (mmul m (N p) (Dm i p)) (mmul m (N p) (Dm i p)))))).
    + apply f_equal2.
      * transitivity (sumn m (fun s => sumn n (fun i => mmul m (N p) (Hm i p) s s))); [|unfold mtrace; symmetry; apply (@sumn_swap _ CRing_CR)]. apply sumn_ext. intros s Hs1. unfold mmul. rewrite (@sumn_swap _ CRing_CR n m). apply sumn_ext. intros t Ht.
        rewrite EN, T4 by (rewrite Hs; apply inb2; assumption). rewrite (@nscale _ CRing_CR). reflexivity.
      * apply sumn_ext. intros i _. rewrite <- trBB_trace. unfold trBB. apply sumn_ext. intros s _. apply sumn_ext. intros c _. apply f_equal2; apply sumn_ext; intros j _; rewrite EN; reflexivity.
    + unfold sumn. symmetry. apply (@sumL_sub _ CRing_CR).
Qed.
Lemma dense_rows (b : lapl (R * R)) p : jwf n L (ljac b) -> jidx (ljac b) = None -> (forall G : R * R -> R, G (0, 0) = 0 -> sumn (rows (jdata (ljac b))) (fun r => G (at_ (jdata (ljac b)) (r :: p))) = sumn n (fun i => G (jent (ljac b) i p))).
Proof.
  intros (k & K1 & K2) HD G HG. rewrite HD in K2. assert (ER : rows (jdata (ljac b)) = k) by (unfold rows; rewrite K1; reflexivity). rewrite ER.
  assert (EJ : forall i, jent (ljac b) i p = if (i <? k)%nat then at_ (jdata (ljac b)) (i :: p) else (0, 0)) by (intros i; unfold jent; rewrite HD, ER; reflexivity).
  rewrite (@sumn_ge R CRing_R k n); [|exact K2|intros i H1 H2; rewrite EJ; destruct (Nat.ltb_spec i k); [lia|exact HG]]. apply (@sumn_ext R CRing_R). intros i Hi. rewrite EJ. destruct (Nat.ltb_spec i k); [reflexivity|lia].
Qed.
Lemma sumn_pair k (f : nat -> R * R) : sumn k f = (sumn k (fun i => fst (f i)), sumn k (fun i => snd (f i))).
Proof. unfold sumn. induction (seq 0 k) as [|x l IH]; [reflexivity|]. cbn [sumL]. rewrite IH. reflexivity. Qed.
Theorem slogC_track r : slogdet_complex c2r th (AL a) = Some r ->
  exists s b, r = (AL s, AL b) /\ sh (lx s) = L /\ sh (lx b) = L /\ jidx (ljac s) = None /\ jidx (ljac b) = None /\ track n (AL s) (fun i t => phase_det (w i t)) /\ track n (AL b) (fun i t => log_absdetC (w i t)).
Proof.
  intros H. unfold slogdet_complex in H. destruct (wrap_fl (slogdet_rule phase_det mat_invC) c2r 0 [AL a]) as [[b|x]|] eqn:E; cbn [bind] in H; try discriminate. cbn [aval] in H.
  destruct (@slogC_main b E) as (M1 & M2 & M3 & M4 & k & M5 & M6). exists (phase_la b), (Lapl (log_absdetC (lx a)) (jmap re (ljac b)) (ndmap re (llap b))). split; [congruence|]. clear H.
  assert (EL : lead (lx a) = L) by apply (@lead_of _ (lx a) L m Hs). assert (Em : msizeC (lx a) = m) by apply (@msizeC_of (lx a) L m Hs).
  assert (SL : sh (lx (phase_la b)) = L) by (cbn [phase_la lx]; rewrite M3; exact EL). split; [exact SL|]. split; [exact EL|]. split; [exact M2|]. split; [cbn; rewrite M2; reflexivity|].
  assert (HC : forall i, (i < n)%nat -> near (fun t => sh (w i t) = L ++ [m; m])) by (destruct HT as (_ & _ & h & T3 & _); intros i Hi; destruct (T3 i Hi) as [T5 _]; rewrite Hs in T5; exact T5).
  assert (EV : forall p, at_ (lx b) p = csgn (det m (matC (lx a) p))) by (intros p; rewrite M3; cbn [phase_det at_]; rewrite Em; reflexivity).
  destruct M1 as (kr & K1 & K2). pose proof K2 as K2'. rewrite M2 in K2'. split.
  - split; [split; [|reflexivity]|]; [rewrite SL; exists kr; split; [exact K1|cbn [phase_la ljac jidx]; rewrite M2; exact K2']|]. split; [intros X; unfold weak in X; cbn [phase_la ljac jidx] in X; rewrite M2 in X; discriminate X|].
    exists (fun i p => rmul (csgn (det m (matC (lx a) p))) (- (snd (jent (ljac b) i p) * snd (jent (ljac b) i p)), snd (k i p))). rewrite SL. split.
    + intros i Hi. split; [generalize (HC i Hi); apply near_imp; intros t Et; rewrite SL; cbn [phase_det sh]; apply (@lead_of _ _ L m Et)|]. rewrite SL. intros p Hp.
      assert (EJ : jent (ljac (phase_la b)) i p = rmul (rmul (0, 1) (csgn (det m (matC (lx a) p)))) (snd (jent (ljac b) i p), 0)).
      { unfold jent. cbn [phase_la ljac jidx jdata]. rewrite M2. unfold rows. cbn [sh at_ hd tl]. rewrite K1. cbn [hd]. destruct (Nat.ltb_spec i kr); [unfold sign_jac; rewrite EV; reflexivity|]. cc. f_equal; ring. }
      rewrite EJ. cbn [phase_la lx]. rewrite EV. apply jetC_ext with (phi := fun t => csgn (det m (matC (w i t) p))); [generalize (HC i Hi); apply near_imp; intros t Et; cbn [phase_det at_]; rewrite (@msizeC_of _ L m Et); reflexivity|].
      apply (@csgn_jet _ _ _ (k i p)); [apply M5; assumption|apply Hd; exact Hp].
    + intros p Hp. cbn [phase_la llap at_]. rewrite EV. unfold sign_lapl. rewrite (@nscale _ CRing_CR). apply f_equal. 
      assert (ED : sumn (rows (jdata (ljac b))) (fun r => rmul (im (at_ (jdata (ljac b)) (r :: p))) (im (at_ (jdata (ljac b)) (r :: p)))) = sumn n (fun i => rmul (im (jent (ljac b) i p)) (im (jent (ljac b) i p)))) by (apply (@dense_rows b p (ex_intro _ kr (conj K1 K2)) M2 (fun z => (snd z * snd z)%R)); cbn; ring).
      rewrite ED. rewrite (M6 p Hp). rewrite !sumn_pair. cbn [fst snd].
      change (@sumn R CRing_R n (fun i => (- (snd (jent (ljac b) i p) * snd (jent (ljac b) i p)))%R)) with (sumn n (fun i => ropp (rmul (snd (jent (ljac b) i p)) (snd (jent (ljac b) i p))))). rewrite (@nopp R CRing_R). unfold im, to_complex, cI. cc. f_equal; ring.
  - split; [split; [|cbn [llap lx ndmap sh log_absdetC]; rewrite EL; exact M4]|]; [cbn [lx log_absdetC sh]; rewrite EL; exists kr; split; [exact K1|cbn [ljac jmap jidx]; rewrite M2; exact K2']|]. split; [intros X; unfold weak in X; cbn [ljac jmap jidx] in X; rewrite M2 in X; discriminate X|].
    exists (fun i p => fst (k i p)). cbn [lx log_absdetC sh]. rewrite EL. split.
    + intros i Hi. split; [generalize (HC i Hi); apply near_imp; intros t Et; cbn [log_absdetC sh]; rewrite EL; apply (@lead_of _ _ L m Et)|]. cbn [sh log_absdetC]. rewrite EL. intros p Hp. cbn [ljac]. rewrite (@jent_map _ _ _ CRing_R re re_additive). cbn [lx log_absdetC at_]. rewrite Em.
      apply jet2_ext with (phi := fun t => ln (cmod (det m (matC (w i t) p)))); [generalize (HC i Hi); apply near_imp; intros t Et; cbn [log_absdetC at_]; rewrite (@msizeC_of _ L m Et); reflexivity|].
      apply (@lnmod_jet _ _ (jent (ljac b) i p) (k i p)); [apply M5; assumption|apply Hd; exact Hp].
    + intros p Hp. cbn [llap ndmap at_]. rewrite (M6 p Hp). rewrite sumn_pair. reflexivity.
Qed.
End Track.
