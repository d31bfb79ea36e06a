(* SlogCalc.v : jnp.linalg.inv, sign and log|det| of real matrices as array functions (they are the parameters of Slog.v), and the statement
   that the derivatives the slogdet rule uses (wrapped_functions.py:204-232, custom_hessian.py:11-53) are the derivatives of log|det|. *)
From Coq Require Import Reals Lra.
From Coquelicot Require Import Coquelicot.
From Verif Require Export CalcOps Slog LogDet.
Set Implicit Arguments.
Local Open Scope R_scope.

(* the array x with zeros outside its shape *)
Definition tidy (x : nd R) : nd R := Nd (sh x) (fun i => if inbb i (sh x) then at_ x i else 0).
(* the size of the matrices in the trailing two axes, and the matrix at leading index p *)
Definition msize (x : nd R) : nat := nth (ndim x - 2) (sh x) 0%nat.
(* the matrix at leading index p *)
Definition matat (x : nd R) (p : ix) : Rmx := mat (tidy x) p.
(* the leading part of an index *)
Definition cut2 (q : ix) : ix := firstn (length q - 2) q.
(* jnp.linalg.inv, used at wrapped_functions.py:204-232 *)
Definition mat_inv (x : nd R) : nd R := Nd (sh x) (fun q => minv (msize x) (matat x (cut2 q)) (nth (length q - 2) q 0%nat) (nth (length q - 1) q 0%nat)).
(* jnp.linalg.slogdet(x)[1], wrapped_functions.py:194-201 *)
Definition log_absdet (x : nd R) : nd R := Nd (lead x) (fun p => ln (Rabs (det (msize x) (matat x p)))).
(* jnp.linalg.slogdet(x)[0] *)
Definition sign_det (x : nd R) : nd R := Nd (lead x) (fun p => sign (det (msize x) (matat x p))).
(* the two outputs of slogdet *)
Definition op_detlog : op R := op_logdet log_absdet mat_inv.
(* the sign output: locally constant *)
Definition op_detsign : op R := Op (fun xs => sign_det (nth 0 xs nd0)) (fun _ _ _ _ => 0) (fun _ _ _ _ _ _ => 0).
(* an array of square matrices, all of them invertible *)
Definition square (xs : list (nd R)) : Prop := exists x L m, xs = [x] /\ sh x = L ++ [m; m].
(* specification: all matrices are invertible *)
Definition nonsingular (xs : list (nd R)) : Prop := forall p, inb p (lead (nth 0 xs nd0)) -> det (msize (nth 0 xs nd0)) (matat (nth 0 xs nd0) p) <> 0.

Lemma tidy_ext x y i : eqa x y -> at_ (tidy x) i = at_ (tidy y) i.
Proof. intros [H1 H2]. unfold tidy. cbn [at_]. rewrite <- H1. destruct (inbb i (sh x)) eqn:E; [apply H2; apply inb_dec; exact E|reflexivity]. Qed.
Lemma minv_same m (M M' : Rmx) i j : (forall i j, M i j = M' i j) -> minv m M i j = minv m M' i j.
Proof.
  intros H. unfold minv, cofc. rewrite (@det_ext R _ m M M') by auto. f_equal. apply det_ext. intros r c _ _. unfold upc. destruct (Nat.eqb c i); auto.
Qed.
Lemma msize_ext x y : eqa x y -> msize x = msize y.
Proof. intros [H _]. unfold msize, ndim. rewrite H. reflexivity. Qed.
Lemma inv_ext1 : ext1 mat_inv.
Proof. intros x y H i. cbn [mat_inv at_]. rewrite (msize_ext H). apply minv_same. intros a b. unfold matat, mat. apply tidy_ext. exact H. Qed.
Lemma lead_ext x y : eqa x y -> @lead R x = lead y.
Proof. intros [H _]. unfold lead, ndim. rewrite H. reflexivity. Qed.
Lemma det_same x y p : eqa x y -> det (msize x) (matat x p) = det (msize y) (matat y p).
Proof. intros H. rewrite (msize_ext H). apply det_ext. intros i j _ _. unfold matat, mat. apply tidy_ext. exact H. Qed.
Lemma detlog_ext xs : square xs -> fwd_ext op_detlog xs.
Proof.
  intros (x & L & m & -> & Hs) ys HF. inversion HF as [|u y l1 l2 HX HF2 E1 E2]; subst. inversion HF2; subst. cbn [op_detlog op_logdet o_fwd nth].
  split; [cbn; apply lead_ext; exact HX|]. intros i Hi. cbn. rewrite (det_same i HX). reflexivity.
Qed.
Lemma detsign_ext xs : square xs -> fwd_ext op_detsign xs.
Proof.
  intros (x & L & m & -> & Hs) ys HF. inversion HF as [|u y l1 l2 HX HF2 E1 E2]; subst. inversion HF2; subst. cbn [op_detsign o_fwd nth].
  split; [cbn; apply lead_ext; exact HX|]. intros i Hi. cbn. rewrite (det_same i HX). reflexivity.
Qed.
Lemma msize_of (x : nd R) L m : sh x = L ++ [m; m] -> msize x = m.
Proof. intros H. unfold msize, ndim. rewrite H, app_length. cbn [length]. replace (length L + 2 - 2)%nat with (length L) by lia. rewrite app_nth2, Nat.sub_diag by lia. reflexivity. Qed.
Lemma inv_at (x : nd R) L m p i j : sh x = L ++ [m; m] -> mat (mat_inv x) p i j = minv m (matat x p) i j.
Proof.
  intros H. unfold mat, mat_inv, cut2. cbn [at_]. rewrite (@msize_of x L m H), !app_length. cbn [length]. replace (length p + 2 - 2)%nat with (length p) by lia. replace (length p + 2 - 1)%nat with (S (length p)) by lia.
  rewrite firstn_app, Nat.sub_diag, firstn_all, firstn_O, app_nil_r. rewrite !app_nth2 by lia. rewrite Nat.sub_diag. replace (S (length p) - length p)%nat with 1%nat by lia. reflexivity.
Qed.
Lemma inb2 p L i j m : inb p L -> (i < m)%nat -> (j < m)%nat -> inb (p ++ [i; j]) (L ++ [m; m]).
Proof. intros H Hi Hj. apply inb_app; auto. repeat constructor; auto. Qed.
Lemma matat_in (x : nd R) L m p i j : sh x = L ++ [m; m] -> inb p L -> (i < m)%nat -> (j < m)%nat -> matat x p i j = at_ x (p ++ [i; j]).
Proof. intros H Hp Hi Hj. unfold matat, mat, tidy. cbn [at_]. rewrite H. assert (E : inbb (p ++ [i; j]) (L ++ [m; m]) = true) by (apply inb_dec; apply inb2; auto). rewrite E. reflexivity. Qed.

(* the first- and second-order chain-rule sums of op_detlog *)
Lemma detlog_chain (x : nd R) L m p (v : nat -> ix -> R) : sh x = L ++ [m; m] -> inb p L ->
  chain1 op_detlog [x] p v = mtrace m (mmul m (minv m (matat x p)) (fun i j => v 0%nat (p ++ [i; j]))).
Proof.
  intros Hs Hp. transitivity (chain1 op_detlog [lx (Lapl x (Jac x None) x)] p v); [reflexivity|]. unfold op_detlog. rewrite (@logdet_chain R _ log_absdet mat_inv (Lapl x (Jac x None) x) L m p v Hs Hp). cbn [lx].
  unfold mtrace, mmul. apply sumn_ext. intros i _. apply sumn_ext. intros j _. rewrite (@inv_at x L m p i j Hs). reflexivity.
Qed.

Lemma detlog_quad (x : nd R) L m p (v : nat -> ix -> R) : sh x = L ++ [m; m] -> inb p L ->
  let B := mmul m (minv m (matat x p)) (fun i j => v 0%nat (p ++ [i; j])) in quad op_detlog [x] p v v = - mtrace m (mmul m B B).
Proof.
  intros Hs Hp B. set (a := Lapl x (Jac (Nd (1%nat :: sh x) (fun i => v 0%nat (tl i))) None) x).
  pose proof (@logdet_hspec R _ log_absdet mat_inv 1 (merge_of [true]) L m a p (merge_of_ok [true]) Hs Hp) as HX. unfold hspec in HX. rewrite !sumn1 in HX.
  assert (HJ : forall q, jent (ljac a) 0 q = v 0%nat q) by (intros q; reflexivity).
  assert (HQ : quad op_detlog [x] p v v = - trBB (mat (mat_inv x) p) m (fun s t => v 0%nat (p ++ [s; t]))).
  { transitivity (quad (merged op_detlog (merge_of [true]) 1 []) (xs_of [a]) p (fun b q => jent (ljac (nth b [a] la0)) 0 q) (fun b q => jent (ljac (nth b [a] la0)) 0 q)); [|exact HX].
    symmetry. unfold quad. cbn [xs_of map length a lx]. rewrite !sumn1. cbn [nth ljac]. apply sumL_ext. intros q _. rewrite !sumn1. cbn [nth]. apply sumL_ext. intros r _. rewrite !HJ. reflexivity. }
  rewrite HQ. apply f_equal. unfold trBB, mtrace, B, mmul. apply sumn_ext. intros i Hi. apply sumn_ext. intros c Hc. 
  rewrite Rmult_comm. apply f_equal2; apply sumn_ext; intros j Hj; rewrite (@inv_at x L m p _ _ Hs); reflexivity.
Qed.

Lemma sgn_jet (m : nat) (M : R -> Rmx) (M0 D H : Rmx) : (forall i j, (i < m)%nat -> (j < m)%nat -> jet2 (fun t => M t i j) (M0 i j) (D i j) (H i j)) -> det m M0 <> 0 ->
  near (fun t => sign (det m M0) = sign (det m (M t))).
Proof.
  intros HJ Hd. assert (E0 : det m (M 0) = det m M0) by (apply det_ext; intros i j Hi Hj; apply (HJ i j Hi Hj)).
  assert (HC : continuous (fun t => det m (M t)) 0).
  { apply (@det_cont m M D 0). intros i j Hi Hj. destruct (HJ i j Hi Hj) as [_ (p & H1 & <- & _)]. apply (locally_singleton _ _ H1). }
  unfold continuous in HC. rewrite E0 in HC. unfold near. destruct (Rdichotomy _ _ Hd) as [Hn|Hp].
  - assert (HL : locally (det m M0) (fun y => y < 0)) by (apply (open_lt 0); exact Hn). specialize (HC _ HL). unfold filtermap in HC. revert HC. apply filter_imp. intros t Ht. rewrite !sign_eq_m1 by assumption. reflexivity.
  - assert (HL : locally (det m M0) (fun y => 0 < y)) by (apply (open_gt 0); exact Hp). specialize (HC _ HL). unfold filtermap in HC. revert HC. apply filter_imp. intros t Ht. rewrite !sign_eq_1 by assumption. reflexivity.
Qed.
Section Curve.
Context (x : nd R) (L : shape) (m : nat) (D H : nat -> ix -> R) (W : R -> list (nd R)).
Hypothesis Hs : sh x = L ++ [m; m].
Hypothesis HW : curves [x] D H W.
Hypothesis HR : nonsingular [x].
Lemma curve_sh : near (fun t => sh (nth 0 (W t) nd0) = L ++ [m; m]).
Proof. destruct HW as [_ H2]. destruct (H2 0%nat ltac:(cbn; lia)) as [H3 _]. revert H3. apply near_imp. intros t ->. exact Hs. Qed.
Lemma curve_mat p : inb p L -> (forall i j, (i < m)%nat -> (j < m)%nat -> jet2 (fun t => matat (nth 0 (W t) nd0) p i j) (matat x p i j) (D 0%nat (p ++ [i; j])) (H 0%nat (p ++ [i; j]))).
Proof.
  intros Hp i j Hi Hj. rewrite (@matat_in x L m p i j Hs Hp Hi Hj). apply jet2_ext with (phi := fun t => at_ (nth 0 (W t) nd0) (p ++ [i; j])).
  - generalize curve_sh. apply near_imp. intros t Ht. rewrite (@matat_in _ L m p i j Ht Hp Hi Hj). reflexivity.
  - destruct HW as [_ H2]. destruct (H2 0%nat ltac:(cbn; lia)) as [_ H3]. cbn [nth] in H3. apply H3. rewrite Hs. apply inb2; auto.
Qed.
Lemma curve_det p : inb p L -> det m (matat x p) <> 0.
Proof. intros Hp. pose proof HR as K. unfold nonsingular in K. specialize (K p). cbn [nth] in K. rewrite (@lead_of R x L m Hs), (@msize_of x L m Hs) in K. auto. Qed.
Lemma detlog_jets : jets (o_fwd op_detlog [x]) (fun p => chain1 op_detlog [x] p D) (fun p => (chain1 op_detlog [x] p H + quad op_detlog [x] p D D)%R) (fun t => o_fwd op_detlog (W t)).
Proof.
  assert (EL : forall y, sh y = L ++ [m; m] -> @lead R y = L) by (intros y Hy; apply (@lead_of R y L m Hy)). split.
  - generalize curve_sh. apply near_imp. intros t Ht. cbn. rewrite (EL _ Ht), (EL _ Hs). reflexivity.
  - cbn [op_detlog op_logdet o_fwd sh nth log_absdet at_]. rewrite (EL _ Hs). intros p Hp.
    apply jet2_ext with (phi := fun t => ln (Rabs (det m (matat (nth 0 (W t) nd0) p)))).
    + generalize curve_sh. apply near_imp. intros t Ht. rewrite (@msize_of _ L m Ht). reflexivity.
    + rewrite (@msize_of _ L m Hs). eapply jet2_eq; [apply (@logdet_jet m _ (matat x p) (fun i j => D 0%nat (p ++ [i; j])) (fun i j => H 0%nat (p ++ [i; j])) (curve_mat Hp) (curve_det Hp))|reflexivity| |].
      * symmetry. apply (@detlog_chain x L m p D Hs Hp).
      * rewrite (@detlog_chain x L m p H Hs Hp), (@detlog_quad x L m p D Hs Hp). reflexivity.
Qed.
Lemma detsign_near : near (fun t => eqa (o_fwd op_detsign [x]) (o_fwd op_detsign (W t))).
Proof.
  assert (EL : forall y, sh y = L ++ [m; m] -> @lead R y = L) by (intros y Hy; apply (@lead_of R y L m Hy)).
  assert (HN : near (fun t => forall p, In p (allix L) -> sign (det m (matat x p)) = sign (det m (matat (nth 0 (W t) nd0) p)))).
  { apply near_list. intros p Hp. apply allix_spec in Hp. apply (@sgn_jet m _ _ _ _ (curve_mat Hp) (curve_det Hp)). }
  generalize (near_and HN curve_sh). apply near_imp. intros t [A B]. cbn [op_detsign o_fwd nth]. split; cbn [sign_det sh at_]; rewrite (EL _ Hs); [symmetry; auto|].
  intros p Hp. rewrite (@msize_of _ L m Hs), (@msize_of _ L m B). apply A. apply allix_spec. exact Hp.
Qed.
End Curve.
Theorem detlog_smooth xs : square xs -> nonsingular xs -> smooth op_detlog xs.
Proof. intros (x & L & m & -> & Hs) HR D H W HW. exact (@detlog_jets x L m D H W Hs HW HR). Qed.
Theorem detsign_flat xs : square xs -> nonsingular xs -> flat_at op_detsign xs.
Proof. intros (x & L & m & -> & Hs) HR D H W HW. exact (@detsign_near x L m D H W Hs HW HR). Qed.
