(* Props_Cplx2.v : C47, complex values between real inputs and the result. *)
From Coq Require Import Reals Lra QArith FunctionalExtensionality.
From Coquelicot Require Import Coquelicot.
From Verif Require Export Props_Calc.
Set Implicit Arguments.
Open Scope nat_scope.
Local Notation fwd c2r := (forward_laplacian (prim_reg c2r) (name_reg c2r) c2r).

(* ---- specification ---- *)
(* an array with Jacobian and Laplacian (AL) or a plain array (AX) of complex numbers, whose elements are functions of t along n curves w 0, ..., w (n-1) (the n
   real input coordinates): every element of w i is twice differentiable at t = 0 (real and imaginary part), with the stored first derivative, and the stored
   Laplacian is the sum of the n second derivatives *)
Definition along (n : nat) (v : arg (R * R)) (w : nat -> R -> nd (R * R)) : Prop :=
  match v with
  | AX x => forall i, i < n -> locally 0%R (fun t => eqa x (w i t))
  | AL a => awf n a /\ jrow1 (ljac a) /\ (forall i, i < n -> locally 0%R (fun t => sh (w i t) = sh (lx a))) /\
      exists h : nat -> ix -> R * R, (forall i p, i < n -> inb p (sh (lx a)) ->
        jet2 (fun t => fst (at_ (w i t) p)) (fst (at_ (lx a) p)) (fst (jent (ljac a) i p)) (fst (h i p)) /\ jet2 (fun t => snd (at_ (w i t) p)) (snd (at_ (lx a) p)) (snd (jent (ljac a) i p)) (snd (h i p))) /\
      forall p, inb p (sh (lx a)) -> at_ (llap a) p = sumn n (fun i => h i p)
  end.
(* phi and its first two derivatives at 0 *)
Definition derivs (phi : R -> R) (v d h : R) : Prop := phi 0%R = v /\ is_derive phi 0%R d /\ is_derive_n phi 2 0%R h.

Lemma along_track n v w : along n v w -> track n v w.
Proof.
  destruct v as [a|x]; [|exact (fun H => H)]. intros (H1 & H2 & H3 & h & H4 & H5). split; [exact H1|]. split; [exact H2|]. exists h. split; [|exact H5]. intros i Hi. split; [apply H3; exact Hi|]. intros p Hp. exact (H4 i p Hi Hp).
Qed.
Lemma along_tracks n vs : forall W, Forall2 (along n) vs W -> tracks n vs (fun i t => map (fun w => w i t) W).
Proof.
  induction vs as [|v vs IH]; intros W H; inversion H; subst; [intros i Hi; apply near_all; reflexivity|]. apply (@tracks_cons _ _ _ n v vs y (fun i t => map (fun w => w i t) l')); [apply along_track; assumption|apply IH; assumption].
Qed.
Lemma along_vok n v w : along n v w -> vok n v.
Proof. destruct v as [a|x]; [|exact (fun _ => I)]. intros (H1 & H2 & _). split; assumption. Qed.
Lemma jet_derivs phi v d h : jet2 phi v d h -> derivs phi v d h.
Proof. intros H. split; [exact (proj1 H)|]. exact (jet2_derive H). Qed.

(* ---- C47: the rules for holomorphic functions of complex arrays (arithmetic, exp, log, ..., sums, products, indexing, dot_general and functions without a
   rule).  The real and imaginary part of every element of the result carry the first derivatives along every input coordinate and the sum of the second ones. ---- *)
Theorem C47_holomorphic_rules_exact : forall (n : nat) (k : ckern) (complex_to_real : bool) (threshold : Z) (args : list (arg (R * R))) (W : list (nat -> R -> nd (R * R))) (r : arg (R * R)),
  let xs := map (@aval (R * R)) args in
  0 < n -> Forall2 (along n) args W -> als args <> [] -> ck_applies k xs -> ck_diff k xs -> ck_mix threshold n k args -> ck_run k complex_to_real threshold args = Some r ->
  exists b, r = AL b /\ lx b = o_fwd (ck_op k) xs /\ forall p, inb p (sh (lx b)) -> let phi i t := at_ (o_fwd (ck_op k) (map (fun w => w i t) W)) p in
    exists h : nat -> R * R, (forall i, i < n -> derivs (fun t => fst (phi i t)) (fst (at_ (lx b) p)) (fst (jent (ljac b) i p)) (fst (h i)) /\ derivs (fun t => snd (phi i t)) (snd (at_ (lx b) p)) (snd (jent (ljac b) i p)) (snd (h i))) /\
      at_ (llap b) p = sumn n h.
Proof.
  intros n k c2r th args W r xs Hn HA Hne H1 H2 H3 H4. pose proof (along_tracks HA) as HT.
  assert (HV : forall v, In v args -> vok n v).
  { clear -HA. induction HA as [|v w l m Hv HA IH]; intros u Hu; [destruct Hu|]. destruct Hu as [<-|Hu]; [exact (@along_vok n v w Hv)|auto]. }
  destruct (@ck_ok n k c2r th args r Hn HV Hne H1 H2 H3 H4) as (b & -> & B1 & B2). exists b. split; [reflexivity|]. split; [apply B1|]. intros p Hp phi.
  destruct (@out_track (R * R) CRing_CR _ n (ck_op k) args _ b HT B1 B2 (@ck_smooth k xs H1 H2)) as (_ & _ & g & T1 & T2). exists (fun i => g i p). split; [|apply T2; exact Hp].
  intros i Hi. destruct (T1 i Hi) as [_ T3]. destruct (T3 p Hp) as [T4 T5]. split; apply jet_derivs; assumption.
Qed.
Print Assumptions C47_holomorphic_rules_exact.

(* ---- C47: the modulus, with jax.numpy.abs away from zero; the Jacobian of the argument is dense or stores no input twice per element (C21) ---- *)
Lemma join_split_idx (m : nd Z) : join_idx (split_idx m) = m.
Proof. destruct m as [s f]. unfold join_idx, split_idx. cbn [sh at_]. f_equal; [apply removelast_last|]. apply functional_extensionality. intros p. rewrite !rl. reflexivity. Qed.
Lemma join_split_la (a : lapl (R * R)) : join_la (split_la a) = a.
Proof. destruct a as [x [d i] l]. unfold join_la, split_la, join_jac, split_jac. cbn. rewrite !join_split. f_equal. f_equal. destruct i as [m|]; cbn; [rewrite join_split_idx|]; reflexivity. Qed.
Theorem C47_modulus_exact : forall (n : nat) (complex_to_real : bool) (threshold : Z) (a : lapl (R * R)) (w : nat -> R -> nd (R * R)) (r : arg R),
  0 < n -> along n (AL a) w -> (forall p, inb p (sh (lx a)) -> at_ (lx a) p <> (0, 0)%R) -> (weak (ljac a) = false \/ jdistinct (ljac a)) ->
  complex_abs complex_to_real threshold (AL a) = Some r ->
  exists b, r = AL b /\ sh (lx b) = sh (lx a) /\ forall p, inb p (sh (lx a)) -> let modulus (z : R * R) := sqrt (fst z * fst z + snd z * snd z) in
    exists h : nat -> R, (forall i, i < n -> derivs (fun t => modulus (at_ (w i t) p)) (at_ (lx b) p) (jent (ljac b) i p) (h i)) /\ at_ (llap b) p = sumn n h.
Proof.
  intros n c2r th a w r Hn HA HZ HD H. pose proof (@along_track n (AL a) w HA) as HTa. pose proof HA as (A1 & A2 & A3 & _). destruct (split_awf A1 A2) as (S1 & S2 & S3). set (e := split_la a) in *.
  assert (HX : iscx (lx e)) by (exists (sh (lx a)); reflexivity). assert (Ej : join2 (lx e) = lx a) by apply join_split.
  assert (HE : abs_run c2r th [AL e] = Some r) by (cbn [abs_run dec]; unfold e; rewrite join_split_la; exact H).
  assert (HZ' : forall p, inb p (sh (join2 (lx e))) -> at_ (join2 (lx e)) p <> (0, 0)%R) by (rewrite Ej; exact HZ).
  assert (HD' : weak (ljac e) = false \/ jdistinct (ljac (join_la e))).
  { unfold e. rewrite join_split_la. destruct HD as [HD|HD]; [left|right; exact HD]. unfold weak in *. cbn. destruct (jidx (ljac a)); [discriminate|reflexivity]. }
  destruct (@abs_ok n c2r th e r Hn (conj S1 S2) HX S3 HZ' HD' HE) as (b & -> & B1 & B2). exists b. split; [reflexivity|].
  assert (Sb : sh (lx b) = sh (lx a)) by (destruct B1 as (-> & _); cbn [map aval]; rewrite abs_shape, Ej; reflexivity). split; [exact Sb|]. intros p Hp modulus.
  assert (HT : tracks n [AL e] (fun i t => [split2 (w i t)])).
  { apply (@tracks_cons _ _ _ n (AL e) [] (fun i t => split2 (w i t)) (fun _ _ => [])); [|intros i Hi; apply near_all; reflexivity]. destruct HTa as (_ & _ & h & T1 & T2). split; [exact S1|]. split; [exact S2|].
    exists (fun i q => comp (last q 0) (h i (removelast q))). split.
    - intros i Hi. eapply jets_eq; [| |exact (split_jets (T1 i Hi))]; [|reflexivity]. intros q Hq. destruct (inb_snoc_inv _ Hq) as (p' & k & -> & Hp' & Hk). cbv beta. rewrite rl, ll. symmetry. unfold e. cbn [split_la ljac]. destruct A1 as [A1 _]. exact (@split_jent n _ _ i p' k A1).
    - intros q Hq. destruct (inb_snoc_inv _ Hq) as (p' & k & -> & Hp' & Hk). cbn [e split_la llap split2 at_]. rewrite rl, ll, (T2 p' Hp'). rewrite comp_sumn. reflexivity. }
  destruct (@out_track R CRing_R _ n abs_op [AL e] _ b HT B1 B2 (@abs_smooth (lx e) HX HZ')) as (_ & _ & g & T1 & T2). rewrite Sb in *. exists (fun i => g i p). split; [|apply T2; exact Hp].
  intros i Hi. destruct (T1 i Hi) as [_ T3]. specialize (T3 p). rewrite Sb in T3. specialize (T3 Hp). apply jet_derivs. apply jet2_ext with (2 := T3). generalize (A3 i Hi). apply filter_imp. intros t Et.
  rewrite abs_at; [|rewrite join_split; rewrite Et; exact Hp]. rewrite join_split. reflexivity.
Qed.
Print Assumptions C47_modulus_exact.

(* ================= examples ================= *)
(* sum_j Re(exp(x_j + i)) |x_j + i| at x = (2, 3): real -> complex -> real.  Dense mode returns (C01_dense_mode_returns), and the result is exact
   (C01_forward_laplacian_is_exact). *)
Definition exI : atom (nd R) := ALit (lits [1; 2] [0; 1]%R).
Definition exK : @jaxpr R prim := Jaxpr [] [0] []
  [pe (PCplx (CCross XComplex)) [V 0] 1; pe (PCplx (CKern (KLin CAdd))) [V 1; exI] 2; pe (PCplx (CKern (KFun 1 (EExp (EVar 0))))) [V 2] 3; pe (PCplx (CCross XRe)) [V 3] 4; pe (PCplx CAbs) [V 2] 5; pe PMul [V 4; V 5] 6; pe (PSum [0]) [V 6] 7] [V 7].
Lemma cx2 (x : nd R) m : sh x = [m; 2] -> iscx x.
Proof. intros E. exists [m]. exact E. Qed.
Ltac cfits := match goal with
  | |- applies (PCplx (CKern _)) _ => split; [let x := fresh in let H := fresh in intros x H; cbn [In] in H; repeat (destruct H as [<-|H]; [eapply cx2; reflexivity|]); destruct H|split; [first [reflexivity | split; [reflexivity|vm_compute; discriminate]]|first [reflexivity|vm_compute; discriminate]]]
  | |- applies (PCplx (CCross XComplex)) _ => eexists; split; [reflexivity|exact I]
  | |- applies (PCplx (CCross _)) _ => eexists; split; [reflexivity|eapply cx2; reflexivity]
  | |- applies (PCplx CAbs) _ => eexists; split; [reflexivity|eapply cx2; reflexivity]
  | |- diff_at (PCplx (CKern (KFun _ _))) _ => let p := fresh in let H := fresh in intros p H; cbn; repeat split
  | |- _ => fits end.
Example C47_program_hypotheses_met : smallj exK /\ smooth_noscan exK true exX /\ exists ys, plain_run exK true exX = Some ys.
Proof.
  split; [unfold exK; small_prog|]. split.
  - unfold smooth_noscan, exK, exX. cbn -[prim_op applies diff_at o_fwd]. repeat match goal with |- _ /\ _ => split end; try cfits.
    intros p Hp. change (inb p [2]) in Hp. assert (E : p = [0] \/ p = [1]) by (inversion Hp as [|m ? ? ? Hm Hp']; subst; inversion Hp'; subst; destruct m as [|[|m]]; auto; lia). destruct E as [-> | ->]; vm_compute; intros [=]; lra.
  - assert (E : issome (plain_run exK true exX) = true) by (vm_compute; reflexivity). destruct (plain_run exK true exX) as [ys|]; [eauto|discriminate].
Qed.

(* the hypotheses of the two theorems: the curve t |-> 2 + t + i through z = 2 + i, one input *)
Definition exz : lapl (R * R) := Lapl (Nd [1] (fun _ => (2, 1)%R)) (Jac (Nd [1; 1] (fun _ => (1, 0)%R)) None) (Nd [1] (fun _ => (0, 0)%R)).
Definition exw (i : nat) (t : R) : nd (R * R) := Nd [1] (fun _ => (2 + t, 1)%R).
Lemma exz_along : along 1 (AL exz) exw.
Proof.
  split; [split; [exists 1; split; [reflexivity|cbn; lia]|reflexivity]|]. split; [intros X; discriminate X|]. split; [intros; apply near_all; reflexivity|]. exists (fun _ _ => (0, 0)%R). split.
  - intros [|i] p Hi Hp; [|lia]. split; cbn.
    + apply jet2_ext with (2 := jet2_line 2 1). apply near_all. intros t. ring.
    + apply jet2_const.
  - intros p Hp. cbn. cc. f_equal; ring.
Qed.
Example C47_rules_hypotheses_met : Forall2 (along 1) [AL exz] [exw] /\ als [AL exz] <> [] /\ ck_applies (KFun 1 (EExp (EVar 0))) [lx exz] /\ ck_diff (KFun 1 (EExp (EVar 0))) [lx exz] /\ ck_mix 0%Z 1 (KFun 1 (EExp (EVar 0))) [AL exz] /\
  (forall c2r, issome (ck_run (KFun 1 (EExp (EVar 0))) c2r 0%Z [AL exz]) = true) /\ (forall p, inb p (sh (lx exz)) -> at_ (lx exz) p <> (0, 0)%R) /\ (forall c2r, issome (complex_abs c2r 0%Z (AL exz)) = true).
Proof.
  split; [constructor; [exact exz_along|constructor]|]. split; [discriminate|]. split; [split; [split; [reflexivity|vm_compute; discriminate]|reflexivity]|]. split; [intros p Hp; cbn; repeat split|].
  split; [split; left; reflexivity|]. split; [intros []; vm_compute; reflexivity|]. split; [intros p _; cbn; intros [=]; lra|intros []; vm_compute; reflexivity].
Qed.
