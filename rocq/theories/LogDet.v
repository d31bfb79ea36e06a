(* LogDet.v : inverse and log|det| of real matrices and their derivatives along curves of matrices.  Independent specification for C22;
   no code is modelled here. *)
From Coq Require Import Reals Lra.
From Coquelicot Require Import Coquelicot.
From Verif Require Export Jet Det.
Set Implicit Arguments.
Local Open Scope R_scope.
Notation Rmx := (nat -> nat -> R).
Local Notation lt2 m i j := ((i < m)%nat /\ (j < m)%nat).

Lemma Rscale n c (f : nat -> R) : sumn n (fun i => c * f i) = c * sumn n f.
Proof. exact (@nscale R _ n c f). Qed.
Lemma Rscale_r n c (f : nat -> R) : sumn n (fun i => f i * c) = sumn n f * c.
Proof. exact (@nscale_r R _ n c f). Qed.
Lemma Radd n (f g : nat -> R) : sumn n (fun i => f i + g i) = sumn n f + sumn n g.
Proof. exact (@nadd R _ n f g). Qed.
Lemma Ropps n (f : nat -> R) : sumn n (fun i => - f i) = - sumn n f.
Proof. exact (@nopp R _ n f). Qed.
(* Cramer's rule *)
Definition minv (m : nat) (M : Rmx) : Rmx := fun j i => cofc m M i j / det m M.
Theorem minv_left m M j k : det m M <> 0 -> (j < m)%nat -> (k < m)%nat -> mmul m (minv m M) M j k = delta j k.
Proof.
  intros Hd Hj Hk. unfold mmul, minv. assert (H : sumn m (fun i => M i k * cofc m M i j) = delta j k * det m M) by exact (@cofc_inverse R _ m M j k Hj Hk).
  transitivity (/ det m M * sumn m (fun i => M i k * cofc m M i j)).
  - rewrite <- Rscale. apply sumn_ext. intros i _. unfold Rdiv. cbn. ring.
  - rewrite H. cbn. field. exact Hd.
Qed.
(* specification: the inverse matrix *)
Definition rinv (m : nat) (M : Rmx) : Rmx := fun j i => cofr m M i j / det m M.
Lemma rinv_right m M k i : det m M <> 0 -> (k < m)%nat -> (i < m)%nat -> mmul m M (rinv m M) k i = delta k i.
Proof.
  intros Hd Hk Hi. unfold mmul, rinv. assert (H : sumn m (fun j => M k j * cofr m M i j) = delta i k * det m M) by exact (@cofr_inverse R _ m M i k Hi Hk).
  transitivity (/ det m M * sumn m (fun j => M k j * cofr m M i j)).
  - rewrite <- Rscale. apply sumn_ext. intros j _. unfold Rdiv. cbn. ring.
  - rewrite H. replace (@delta R _ k i) with (@delta R _ i k) by (unfold delta; rewrite Nat.eqb_sym; reflexivity). cbn. field. exact Hd.
Qed.
Lemma mmul_assoc m (X Y Z : Rmx) i j : mmul m (mmul m X Y) Z i j = mmul m X (mmul m Y Z) i j.
Proof.
  unfold mmul. transitivity (sumn m (fun k => sumn m (fun l => X i l * Y l k * Z k j))).
  - apply sumn_ext. intros k _. symmetry. apply Rscale_r.
  - rewrite (@sumn_swap R _). apply sumn_ext. intros l _. rewrite <- Rscale. apply sumn_ext. intros k _. cbn. ring.
Qed.
Lemma mmul_ext m (X X' Y Y' : Rmx) i j : (forall k, (k < m)%nat -> X i k = X' i k) -> (forall k, (k < m)%nat -> Y k j = Y' k j) -> mmul m X Y i j = mmul m X' Y' i j.
Proof. intros H1 H2. unfold mmul. apply sumn_ext. intros k Hk. rewrite H1, H2 by auto. reflexivity. Qed.
Lemma mmul_1l m (X : Rmx) i j : (i < m)%nat -> mmul m delta X i j = X i j.
Proof. intros Hi. unfold mmul. rewrite <- (@sum_delta R _ m i (fun k => X k j) Hi). apply sumn_ext. intros k _. cbn. ring. Qed.
Lemma mmul_1r m (X : Rmx) i j : (j < m)%nat -> mmul m X delta i j = X i j.
Proof. intros Hi. unfold mmul. apply (@sum_delta' R _ m j (fun k => X i k) Hi). Qed.
Lemma minv_rinv m M i j : det m M <> 0 -> (i < m)%nat -> (j < m)%nat -> minv m M i j = rinv m M i j.
Proof.
  intros Hd Hi Hj. rewrite <- (@mmul_1r m (minv m M) i j Hj), <- (@mmul_1l m (rinv m M) i j Hi).
  transitivity (mmul m (minv m M) (mmul m M (rinv m M)) i j).
  - apply mmul_ext; auto. intros k Hk. symmetry. apply rinv_right; auto.
  - rewrite <- mmul_assoc. apply mmul_ext; auto. intros k Hk. apply minv_left; auto.
Qed.
Theorem minv_right m M k i : det m M <> 0 -> (k < m)%nat -> (i < m)%nat -> mmul m M (minv m M) k i = delta k i.
Proof. intros Hd Hk Hi. rewrite <- (@rinv_right m M k i Hd Hk Hi). apply mmul_ext; auto. intros l Hl. apply minv_rinv; auto. Qed.
(* any inverse is this one *)
Theorem minv_unique m M (X : Rmx) i j : det m M <> 0 -> (i < m)%nat -> (j < m)%nat -> (forall i j, (i < m)%nat -> (j < m)%nat -> mmul m X M i j = delta i j) -> X i j = minv m M i j.
Proof.
  intros Hd Hi Hj H. rewrite <- (@mmul_1r m X i j Hj), <- (@mmul_1l m (minv m M) i j Hi).
  transitivity (mmul m X (mmul m M (minv m M)) i j).
  - apply mmul_ext; auto. intros k Hk. symmetry. apply minv_right; auto.
  - rewrite <- mmul_assoc. apply mmul_ext; auto.
Qed.
Lemma minv_ext m M M' : (forall i j, (i < m)%nat -> (j < m)%nat -> M i j = M' i j) -> forall i j, (i < m)%nat -> (j < m)%nat -> minv m M i j = minv m M' i j.
Proof.
  intros H i j Hi Hj. unfold minv, cofc. rewrite (@det_ext R _ m M M' H). f_equal. apply det_ext. intros r c Hr Hc. unfold upc. destruct (Nat.eqb c i); auto.
Qed.

(* ---- derivatives ---- *)
Lemma sum_derive {X} (l : list X) (f : X -> R -> R) (d : X -> R) t : (forall x, In x l -> is_derive (f x) t (d x)) -> is_derive (fun t => sumL l (fun x => f x t)) t (sumL l d).
Proof.
  induction l as [|x l IH]; intros H; cbn; [apply @is_derive_const|]. apply (is_derive_plus (f x) (fun t => sumL l (fun x => f x t)) t); [apply H; left; reflexivity|]. apply IH. intros y Hy. apply H. right. exact Hy.
Qed.
Lemma sumn_derive n (f : nat -> R -> R) (d : nat -> R) t : (forall k, (k < n)%nat -> is_derive (f k) t (d k)) -> is_derive (fun t => sumn n (fun k => f k t)) t (sumn n d).
Proof. intros H. apply (@sum_derive nat). intros k Hk. apply in_seq in Hk. apply H. lia. Qed.
Lemma mul_derive f g t df dg : is_derive f t df -> is_derive g t dg -> is_derive (fun t => f t * g t) t (df * g t + f t * dg).
Proof. intros H1 H2. apply (is_derive_mult f g t df dg H1 H2). intros n m. apply Rmult_comm. Qed.
Theorem det_derive m : forall (M : R -> Rmx) (E : Rmx) t, (forall i j, (i < m)%nat -> (j < m)%nat -> is_derive (fun t => M t i j) t (E i j)) ->
  is_derive (fun t => det m (M t)) t (sumn m (fun c => det m (upc (M t) c (fun i => E i c)))).
Proof.
  induction m as [|m IH]; intros M E t H; [cbn; apply @is_derive_const|].
  evar_last.
  - cbn [det]. apply sumn_derive with (d := fun j => sg j * (E 0%nat j * det m (minor j (M t)) + M t 0%nat j * sumn m (fun k => det m (upc (minor j (M t)) k (fun i => E (S i) (skip j k)))))).
    intros j Hj. apply (is_derive_ext (fun t => sg j * (M t 0%nat j * det m (minor j (M t))))); [intros u; cbn; ring|].
    apply (is_derive_scal (fun t => M t 0%nat j * det m (minor j (M t)))). apply mul_derive; [apply H; lia|].
    apply (IH (fun t => minor j (M t)) (fun i k => E (S i) (skip j k)) t). intros i k Hi Hk. apply H; [lia|apply skip_lt; lia].
  - cbv beta. transitivity (sumn (S m) (fun c => sumn (S m) (fun j => sg j * upc (M t) c (fun i => E i c) 0%nat j * det m (minor j (upc (M t) c (fun i => E i c)))))); [|apply sumn_ext; intros c _; symmetry; exact (@det_S R _ m (upc (M t) c (fun i => E i c)))].
    rewrite (@sumn_swap R _). apply sumn_ext. intros j Hj. rewrite (@sumn_skip R _ m j) by lia.
    rewrite (@det_ext R _ m (minor j (upc (M t) j (fun i => E i j))) (minor j (M t))) by (intros; apply minor_upc_same).
    rewrite (@sumn_ext R _ m (fun k => sg j * upc (M t) (skip j k) (fun i => E i (skip j k)) 0%nat j * det m (minor j (upc (M t) (skip j k) (fun i => E i (skip j k)))))
      (fun k => sg j * M t 0%nat j * det m (upc (minor j (M t)) k (fun i => E (S i) (skip j k))))).
    + rewrite Rscale. unfold upc at 2. rewrite Nat.eqb_refl. cbn. ring.
    + intros k Hk. rewrite (@det_ext R _ m (minor j (upc (M t) (skip j k) (fun i => E i (skip j k)))) (upc (minor j (M t)) k (fun i => E (S i) (skip j k)))) by (intros; apply minor_upc_skip).
      unfold upc at 1. destruct (Nat.eqb_spec j (skip j k)) as [Ej|]; [symmetry in Ej; destruct (@skip_ne _ _ Ej)|reflexivity].
Qed.
(* Jacobi's formula *)
Theorem jacobi m (M : R -> Rmx) (E : Rmx) t : det m (M t) <> 0 -> (forall i j, (i < m)%nat -> (j < m)%nat -> is_derive (fun t => M t i j) t (E i j)) ->
  is_derive (fun t => det m (M t)) t (det m (M t) * mtrace m (mmul m (minv m (M t)) E)).
Proof.
  intros Hd H. evar_last; [apply det_derive; exact H|]. unfold mtrace. rewrite <- Rscale. apply sumn_ext. intros c Hc. assert (HC : sumn m (fun i => E i c * cofc m (M t) i c) = det m (upc (M t) c (fun i => E i c))) by exact (@cof_col R _ m (M t) c (fun i => E i c) Hc). rewrite <- HC.
  unfold mmul. rewrite <- Rscale. apply sumn_ext. intros i _. unfold minv. cbn. field. exact Hd.
Qed.
Lemma fin_choice {X} (P : nat -> X -> Prop) (x0 : X) n : (forall k, (k < n)%nat -> exists x, P k x) -> exists f, forall k, (k < n)%nat -> P k (f k).
Proof.
  induction n as [|n IH]; intros H; [exists (fun _ => x0); intros; lia|]. destruct IH as [f Hf]; [intros; apply H; lia|]. destruct (H n) as [x Hx]; [lia|].
  exists (fun k => if Nat.eqb k n then x else f k). intros k Hk. destruct (Nat.eqb_spec k n) as [->|]; auto. apply Hf. lia.
Qed.
Lemma fin_choice2 {X} (P : nat -> nat -> X -> Prop) (x0 : X) n : (forall i j, (i < n)%nat -> (j < n)%nat -> exists x, P i j x) -> exists f, forall i j, (i < n)%nat -> (j < n)%nat -> P i j (f i j).
Proof.
  intros H. destruct (@fin_choice (nat -> X) (fun i g => forall j, (j < n)%nat -> P i j (g j)) (fun _ => x0) n) as [f Hf].
  - intros i Hi. apply (@fin_choice X (P i) x0). auto.
  - exists f. intros i j Hi Hj. apply Hf; auto.
Qed.
Lemma det_cont m (M : R -> Rmx) (E : Rmx) t : (forall i j, (i < m)%nat -> (j < m)%nat -> is_derive (fun t => M t i j) t (E i j)) -> continuous (fun t => det m (M t)) t.
Proof. intros H. apply @ex_derive_continuous. eexists. apply det_derive. exact H. Qed.
Lemma det_near m (M : R -> Rmx) (E : Rmx) t : det m (M t) <> 0 -> (forall i j, (i < m)%nat -> (j < m)%nat -> is_derive (fun t => M t i j) t (E i j)) -> locally t (fun u => det m (M u) <> 0).
Proof.
  intros Hd H. pose proof (@det_cont m M E t H) as C. unfold continuous in C. apply (C (fun y => y <> 0)). apply (open_neq 0). exact Hd.
Qed.
(* the inverse is differentiable *)
Theorem minv_derive m (M : R -> Rmx) (E : Rmx) t i j : det m (M t) <> 0 -> (forall i j, (i < m)%nat -> (j < m)%nat -> is_derive (fun t => M t i j) t (E i j)) -> (i < m)%nat -> (j < m)%nat ->
  is_derive (fun t => minv m (M t) i j) t (- mmul m (mmul m (minv m (M t)) E) (minv m (M t)) i j).
Proof.
  intros Hd H Hi Hj.
  assert (X : forall i j, (i < m)%nat -> (j < m)%nat -> exists d, is_derive (fun t => minv m (M t) i j) t d).
  { intros a b Ha Hb. unfold minv, cofc. eexists. apply is_derive_div; [|apply det_derive; exact H|exact Hd].
    apply (@det_derive m (fun t => upc (M t) a (fun r => delta r b)) (upc E a (fun _ => 0))). intros r c Hr Hc. unfold upc. destruct (Nat.eqb c a); [apply @is_derive_const|apply H; auto]. }
  destruct (fin_choice2 _ 0 X) as [P HP]. set (N := minv m (M t)) in *.
  assert (Z : forall a b, (a < m)%nat -> (b < m)%nat -> mmul m P (M t) a b = - mmul m N E a b).
  { intros a b Ha Hb. assert (D1 : is_derive (fun t => mmul m (minv m (M t)) (M t) a b) t (sumn m (fun k => P a k * M t k b + N a k * E k b))).
    { unfold mmul. apply sumn_derive. intros k Hk. apply mul_derive; auto. }
    assert (D2 : is_derive (fun t => mmul m (minv m (M t)) (M t) a b) t 0).
    { apply (is_derive_ext_loc (fun _ => delta a b)); [|apply @is_derive_const]. generalize (@det_near m M E t Hd H). apply filter_imp. intros u Hu. symmetry. apply minv_left; auto. }
    apply is_derive_unique in D1, D2. rewrite D1 in D2. rewrite Radd in D2. change (sumn m (fun k => P a k * M t k b) = - sumn m (fun k => N a k * E k b)). lra. }
  replace (- mmul m (mmul m N E) N i j) with (P i j); [auto|].
  rewrite <- (@mmul_1r m P i j Hj). transitivity (mmul m P (mmul m (M t) N) i j); [apply mmul_ext; auto; intros k Hk; symmetry; apply minv_right; auto|].
  rewrite <- mmul_assoc. transitivity (mmul m (fun a b => - mmul m N E a b) N i j); [apply mmul_ext; auto|]. unfold mmul at 1. rewrite (@sumn_ext R _ m _ (fun k => - (mmul m N E i k * N k j))); [apply Ropps|]. intros k _. cbn. ring.
Qed.
Lemma ln_abs_derive x : x <> 0 -> is_derive (fun x => ln (Rabs x)) x (/ x).
Proof.
  intros Hx. destruct (Rtotal_order x 0) as [H|[H|H]]; [|contradiction|].
  - apply (is_derive_ext_loc (fun x => ln (- x))).
    + generalize (open_lt 0 x H). apply filter_imp. intros u Hu. rewrite Rabs_left; auto.
    + auto_derive; [lra|]. field. lra.
  - apply (is_derive_ext_loc (fun x => ln x)).
    + generalize (open_gt 0 x H). apply filter_imp. intros u Hu. rewrite Rabs_right; auto. lra.
    + auto_derive; [lra|]. field. lra.
Qed.
(* log|det| along a curve of matrices: first and second derivative *)
Theorem logdet_jet m (M : R -> Rmx) (M0 D H : Rmx) : (forall i j, (i < m)%nat -> (j < m)%nat -> jet2 (fun t => M t i j) (M0 i j) (D i j) (H i j)) -> det m M0 <> 0 ->
  let N := minv m M0 in
  jet2 (fun t => ln (Rabs (det m (M t)))) (ln (Rabs (det m M0))) (mtrace m (mmul m N D)) (mtrace m (mmul m N H) - mtrace m (mmul m (mmul m N D) (mmul m N D))).
Proof.
  intros HJ Hd N.
  assert (E0 : forall i j, (i < m)%nat -> (j < m)%nat -> M 0 i j = M0 i j) by (intros i j Hi Hj; apply (HJ i j Hi Hj)).
  assert (Ed : det m (M 0) = det m M0) by (apply det_ext; exact E0).
  destruct (@fin_choice2 (R -> R) (fun i j p => locally 0 (fun t => is_derive (fun t => M t i j) t (p t)) /\ p 0 = D i j /\ is_derive p 0 (H i j)) (fun _ => 0) m) as [P HP].
  { intros i j Hi Hj. destruct (HJ i j Hi Hj) as [_ (p & H1 & H2 & H3)]. eauto. }
  assert (HN : locally 0 (fun t => forall i j, (i < m)%nat -> (j < m)%nat -> is_derive (fun t => M t i j) t (P i j t))).
  { apply filter_imp with (P := fun t => forall i, In i (seq 0 m) -> forall j, In j (seq 0 m) -> is_derive (fun t => M t i j) t (P i j t)).
    - intros t HH i j Hi Hj. apply HH; apply in_seq; lia.
    - assert (L : forall X (Q : X -> R -> Prop) (l : list X), (forall x, In x l -> locally 0 (Q x)) -> locally 0 (fun t => forall x, In x l -> Q x t)).
      { intros X Q. induction l as [|x l IH]; intros HQ; [apply filter_forall; intros t y []|]. generalize (filter_and _ _ (HQ x (or_introl eq_refl)) (IH (fun y Hy => HQ y (or_intror Hy)))). apply filter_imp. intros t [A B] y [<-|Hy]; auto. }
      apply L. intros i Hi. apply L. intros j Hj. apply in_seq in Hi, Hj. apply HP; lia. }
  split; [rewrite Ed; reflexivity|]. exists (fun t => mtrace m (mmul m (minv m (M t)) (fun i j => P i j t))). split; [|split].
  - pose proof (locally_singleton _ _ HN) as H0. assert (Hd0 : det m (M 0) <> 0) by (rewrite Ed; exact Hd).
    pose proof (@det_near m M (fun i j => P i j 0) 0 Hd0 H0) as Hn. generalize (filter_and _ _ HN Hn). apply filter_imp. intros t [A B].
    pose proof (@jacobi m M (fun i j => P i j t) t B A) as J. pose proof (is_derive_comp (fun x => ln (Rabs x)) (fun t => det m (M t)) t _ _ (ln_abs_derive B) J) as C.
    evar_last; [exact C|]. cbv beta. cbn. unfold mult, scal; cbn. unfold mult; cbn. field. exact B.
  - unfold mtrace. apply sumn_ext. intros i Hi. apply mmul_ext; intros k Hk; [|apply HP; auto]. unfold N. apply minv_ext; auto.
  - assert (Hd0 : det m (M 0) <> 0) by (rewrite Ed; exact Hd). pose proof (locally_singleton _ _ HN) as H0.
    assert (EN : forall i j, (i < m)%nat -> (j < m)%nat -> minv m (M 0) i j = N i j) by (apply minv_ext; exact E0).
    assert (EP : forall i j, (i < m)%nat -> (j < m)%nat -> P i j 0 = D i j) by (intros; apply HP; auto).
    evar_last.
    + unfold mtrace, mmul. apply sumn_derive. intros i Hi. apply sumn_derive. intros k Hk. apply mul_derive; [apply (@minv_derive m M (fun i j => P i j 0) 0 i k Hd0 H0 Hi Hk)|apply HP; auto].
    + cbv beta. transitivity (mtrace m (mmul m N H) + - mtrace m (mmul m (mmul m N D) (mmul m N D))); [|cbn; ring].
      unfold mtrace at 1 2. rewrite <- Ropps, <- Radd. apply sumn_ext. intros i Hi. rewrite Radd.
      rewrite Rplus_comm. apply f_equal2; [unfold mmul; apply sumn_ext; intros k Hk; rewrite EN by auto; reflexivity|].
      rewrite <- mmul_assoc. match goal with |- _ = - mmul m ?X ?Y i i => change (mmul m X Y i i) with (sumn m (fun k => X i k * Y k i)) end. rewrite <- Ropps. apply sumn_ext. intros k Hk. rewrite EP by auto.
      rewrite (@mmul_ext m (mmul m (minv m (M 0)) (fun i j => P i j 0)) (mmul m N D) (minv m (M 0)) N i k); [cbn; ring| |intros; apply EN; auto].
      intros l Hl. apply mmul_ext; auto.
Qed.
