(* CplxEnc.v : complex arrays inside a program over the reals.  A complex array of shape s is kept as a real array of shape s ++ [2] (last axis: real
   part, imaginary part).  This is a device of the model; no code is modelled here except where cited. *)
From Coq Require Import Reals Lra.
From Coquelicot Require Import Coquelicot.
From Verif Require Export DotCalc.
Set Implicit Arguments.
Local Open Scope nat_scope.

(* the complex numbers: pairs (real part, imaginary part) *)
#[export] Instance CRing_CR : CRing (R * R) := @CRing_C R CRing_R.
(* second-order Taylor data of a complex curve: of its real and of its imaginary part *)
Definition jetC (phi : R -> R * R) (v d h : R * R) : Prop := jet2 (fun t => fst (phi t)) (fst v) (fst d) (fst h) /\ jet2 (fun t => snd (phi t)) (snd v) (snd d) (snd h).
Lemma jetC_ext phi psi v d h : locally 0%R (fun t => phi t = psi t) -> jetC phi v d h -> jetC psi v d h.
Proof. intros E [H1 H2]. split; (eapply jet2_ext; [|eassumption]); generalize E; apply filter_imp; intros t ->; reflexivity. Qed.
Lemma jetC_const c : jetC (fun _ => c) c r0 r0.
Proof. split; apply jet2_const. Qed.
Lemma jetC_add phi psi v d h v' d' h' : jetC phi v d h -> jetC psi v' d' h' -> jetC (fun t => radd (phi t) (psi t)) (radd v v') (radd d d') (radd h h').
Proof. intros [H1 H2] [K1 K2]. split; cbn; apply jet2_plus; assumption. Qed.
Lemma jetC_mul phi psi v d h v' d' h' : jetC phi v d h -> jetC psi v' d' h' ->
  jetC (fun t => rmul (phi t) (psi t)) (rmul v v') (radd (rmul d v') (rmul v d')) (radd (radd (rmul h v') (rmul (radd r1 r1) (rmul d d'))) (rmul v h')).
Proof.
  intros [H1 H2] [K1 K2]. split; cbn.
  - eapply jet2_eq; [exact (jet2_plus (jet2_mult H1 K1) (jet2_opp (jet2_mult H2 K2)))|..]; ring.
  - eapply jet2_eq; [exact (jet2_plus (jet2_mult H1 K2) (jet2_mult H2 K1))|..]; ring.
Qed.
#[export] Instance Jet_C : @Jet (R * R) CRing_CR := {| jt := jetC; jt_ext := jetC_ext; jt_const := jetC_const; jt_add := jetC_add; jt_mul := jetC_mul |}.

(* component k of a complex number *)
Definition comp (k : nat) (z : R * R) : R := match k with O => fst z | _ => snd z end.
(* 1 and i *)
Definition unit2 (k : nat) : R * R := match k with O => (1, 0)%R | _ => (0, 1)%R end.
(* the complex array stored in a real array of shape s ++ [2], and back *)
Definition join2 (x : nd R) : nd (R * R) := Nd (removelast (sh x)) (fun p => (at_ x (p ++ [0]), at_ x (p ++ [1]))).
Definition split2 (x : nd (R * R)) : nd R := Nd (sh x ++ [2]) (fun p => comp (last p 0) (at_ x (removelast p))).
(* the same for index tensors: one index tensor serves both components *)
Definition join_idx (m : nd Z) : nd Z := Nd (removelast (sh m)) (fun p => at_ m (p ++ [0])).
Definition split_idx (m : nd Z) : nd Z := Nd (sh m ++ [2]) (fun p => at_ m (removelast p)).
(* the same for Jacobians, FwdLaplArrays and arguments *)
Definition join_jac (J : jac R) : jac (R * R) := Jac (join2 (jdata J)) (option_map join_idx (jidx J)).
Definition split_jac (J : jac (R * R)) : jac R := Jac (split2 (jdata J)) (option_map split_idx (jidx J)).
Definition join_la (a : lapl R) : lapl (R * R) := Lapl (join2 (lx a)) (join_jac (ljac a)) (join2 (llap a)).
Definition split_la (a : lapl (R * R)) : lapl R := Lapl (split2 (lx a)) (split_jac (ljac a)) (split2 (llap a)).
Definition dec (v : arg R) : arg (R * R) := match v with AL a => AL (join_la a) | AX x => AX (join2 x) end.
Definition enc (v : arg (R * R)) : arg R := match v with AL a => AL (split_la a) | AX x => AX (split2 x) end.
(* x stores a complex array *)
Definition iscx (x : nd R) : Prop := exists s, sh x = s ++ [2].
(* both components are stored under the same input index (always true of what [enc] returns, and of dense Jacobians) *)
Definition paired (v : arg R) : Prop := match v with AX _ => True | AL a => match jidx (ljac a) with None => True | Some m => forall p, at_ m (p ++ [0]) = at_ m (p ++ [1]) end end.
(* a complex function with its derivatives, as a real function of twice the dimension *)
Definition rop (f : op (R * R)) : op R := Op (fun xs => split2 (o_fwd f (map join2 xs)))
  (fun xs p a q => comp (last p 0) (rmul (o_d f (map join2 xs) (removelast p) a (removelast q)) (unit2 (last q 0))))
  (fun xs p a q b r => comp (last p 0) (rmul (o_h f (map join2 xs) (removelast p) a (removelast q) b (removelast r)) (rmul (unit2 (last q 0)) (unit2 (last r 0))))).

(* ---- indices ---- *)
Lemma inb_snoc p s k : inb p s -> k < 2 -> inb (p ++ [k]) (s ++ [2]).
Proof. intros H1 H2. apply inb_app; [exact H1|]. constructor; [exact H2|constructor]. Qed.
Lemma inb_snoc_inv q s : inb q (s ++ [2]) -> exists p k, q = p ++ [k] /\ inb p s /\ k < 2.
Proof.
  intros H. pose proof (inb_length H) as HL. rewrite app_length in HL. cbn in HL. destruct q as [|x q] using rev_ind; [cbn in HL; lia|]. clear IHq. rewrite app_length in HL. cbn in HL.
  exists q, x. split; [reflexivity|]. destruct (@inb_app_inv q [x] s [2]) as [H1 H2]; [lia|exact H|]. split; [exact H1|]. inversion H2; subst. assumption.
Qed.
Lemma rl (p : ix) k : removelast (p ++ [k]) = p. Proof. apply removelast_last. Qed.
Lemma ll (p : ix) k : last (p ++ [k]) 0 = k. Proof. apply last_last. Qed.
Lemma sh_join x s : sh x = s ++ [2] -> sh (join2 x) = s.
Proof. intros E. cbn. rewrite E. apply removelast_last. Qed.
Lemma join_sh x : iscx x -> sh x = sh (join2 x) ++ [2].
Proof. intros (s & E). rewrite (@sh_join x s E). exact E. Qed.
Lemma sh_joinJ (x : nd R) k s : sh x = k :: s ++ [2] -> sh (join2 x) = k :: s.
Proof. intros E. cbn. rewrite E. exact (removelast_last (k :: s) 2). Qed.
Lemma sum2 s (F : ix -> R) : sumL (allix (s ++ [2])) F = sumL (allix s) (fun q => (F (q ++ [0%nat]) + F (q ++ [1%nat]))%R).
Proof. rewrite (@sum_allix_app R CRing_R). apply (@sumL_ext R CRing_R). intros q _. cbn. ring. Qed.
Lemma comp_sum {X} (l : list X) (F : X -> R * R) k : comp k (sumL l F) = sumL l (fun x => comp k (F x)).
Proof. induction l as [|x l IH]; cbn [sumL]; [destruct k; reflexivity|]. rewrite <- IH. destruct k; reflexivity. Qed.
Lemma comp_sumn m (F : nat -> R * R) k : comp k (sumn m F) = sumn m (fun x => comp k (F x)).
Proof. apply comp_sum. Qed.
Lemma pair_eta (z : R * R) : (fst z, snd z) = z. Proof. destruct z; reflexivity. Qed.
Lemma nth_join xs a : a < length xs -> nth a (map join2 xs) nd0 = join2 (nth a xs nd0).
Proof. intros H. apply (@nth_map_in _ _ join2 xs a nd0 nd0). exact H. Qed.

(* ---- the chain rule of the complex function is that of the real one ---- *)
Definition pr (v : nat -> ix -> R) (a : nat) (q : ix) : R * R := (v a (q ++ [0]), v a (q ++ [1])).
Lemma rop_chain f xs p k v : (forall x, In x xs -> iscx x) -> chain1 (rop f) xs (p ++ [k]) v = comp k (chain1 f (map join2 xs) p (pr v)).
Proof.
  intros HX. unfold chain1. rewrite comp_sumn, map_length. apply sumn_ext. intros a Ha. rewrite comp_sum, nth_join by exact Ha.
  assert (E : sh (nth a xs nd0) = sh (join2 (nth a xs nd0)) ++ [2]) by (apply join_sh; apply HX; apply nth_In; exact Ha). rewrite E at 1. rewrite sum2. apply sumL_ext. intros q _.
  cbn [rop o_d]. rewrite !rl, !ll. generalize (o_d f (map join2 xs) p a q). intros [z1 z2]. unfold pr. destruct k; cbn; ring.
Qed.
Lemma rop_quad f xs p k u v : (forall x, In x xs -> iscx x) -> quad (rop f) xs (p ++ [k]) u v = comp k (quad f (map join2 xs) p (pr u) (pr v)).
Proof.
  intros HX. assert (E : forall a, a < length xs -> sh (nth a xs nd0) = sh (join2 (nth a xs nd0)) ++ [2]) by (intros a Ha; apply join_sh; apply HX; apply nth_In; exact Ha).
  unfold quad. rewrite comp_sumn, map_length. apply sumn_ext. intros a Ha. rewrite comp_sum, nth_join by exact Ha. rewrite (E a Ha) at 1. rewrite sum2. apply sumL_ext. intros q _.
  rewrite comp_sumn. transitivity (sumn (length xs) (fun b => (sumL (allix (sh (nth b xs nd0))) (fun r => rmul (o_h (rop f) xs (p ++ [k]) a (q ++ [0%nat]) b r) (rmul (u a (q ++ [0%nat])) (v b r))) +
    sumL (allix (sh (nth b xs nd0))) (fun r => rmul (o_h (rop f) xs (p ++ [k]) a (q ++ [1%nat]) b r) (rmul (u a (q ++ [1%nat])) (v b r))))%R)).
  - symmetry. apply (@sumL_add R CRing_R).
  - apply sumn_ext. intros b Hb. rewrite comp_sum, nth_join by exact Hb. rewrite (E b Hb). rewrite !sum2. transitivity (sumL (allix (sh (join2 (nth b xs nd0)))) (fun r =>
      (((rmul (o_h (rop f) xs (p ++ [k]) a (q ++ [0%nat]) b (r ++ [0%nat])) (rmul (u a (q ++ [0%nat])) (v b (r ++ [0%nat])))) + rmul (o_h (rop f) xs (p ++ [k]) a (q ++ [0%nat]) b (r ++ [1%nat])) (rmul (u a (q ++ [0%nat])) (v b (r ++ [1%nat])))) +
      ((rmul (o_h (rop f) xs (p ++ [k]) a (q ++ [1%nat]) b (r ++ [0%nat])) (rmul (u a (q ++ [1%nat])) (v b (r ++ [0%nat])))) + rmul (o_h (rop f) xs (p ++ [k]) a (q ++ [1%nat]) b (r ++ [1%nat])) (rmul (u a (q ++ [1%nat])) (v b (r ++ [1%nat])))))%R)).
    + symmetry. apply (@sumL_add R CRing_R).
    + apply sumL_ext. intros r _. cbn [rop o_h]. rewrite !rl, !ll. generalize (o_h f (map join2 xs) p a q b r). intros [z1 z2]. unfold pr. destruct k; cbn; ring.
Qed.

(* ---- Jacobians ---- *)
Lemma vok_rows n (a : lapl R) : vok n (AL a) -> iscx (lx a) -> exists k s, sh (lx a) = s ++ [2] /\ sh (jdata (ljac a)) = k :: s ++ [2].
Proof. intros [[(k & E & _) _] _] (s & Es). exists k, s. rewrite Es in E. auto. Qed.
Lemma paired_jent n v i q : vok n v -> iscx (aval v) -> paired v -> vjac (dec v) i q = (vjac v i (q ++ [0]), vjac v i (q ++ [1])).
Proof.
  destruct v as [a|x]; intros HV HX HP.
  - unfold vjac. cbn [dec lift ljac join_la]. unfold jent. cbn [join_jac jidx jdata]. destruct (vok_rows HV HX) as (k & s & _ & E). rewrite (rows_cons _ (@sh_joinJ _ k s E)), (rows_cons _ E).
    destruct (jidx (ljac a)) as [m|] eqn:Em; cbn [option_map].
    + cbn in HP. rewrite Em in HP. unfold sumn. rewrite <- (pair_eta (sumL (seq 0 k) _)). change (fst ?z) with (comp 0 z). change (snd ?z) with (comp 1 z). rewrite !comp_sum. f_equal; apply sumL_ext; intros r _; cbn [join_idx at_ join2 app].
      * destruct (Z.eqb _ _); reflexivity.
      * change (r :: q ++ [1]) with ((r :: q) ++ [1]). rewrite <- HP. cbn [app]. destruct (Z.eqb _ _); reflexivity.
    + destruct (i <? k); reflexivity.
  - unfold vjac. cbn [dec lift ljac]. rewrite !zero_jent. reflexivity.
Qed.
Lemma dec_lap v q : vlap (dec v) q = (vlap v (q ++ [0]), vlap v (q ++ [1])).
Proof. destruct v; reflexivity. Qed.
Lemma dec_aval v : aval (dec v) = join2 (aval v). Proof. destruct v; reflexivity. Qed.
Lemma dec_avals args : map (@aval (R * R)) (map dec args) = map join2 (map (@aval R) args).
Proof. rewrite !map_map. apply map_ext. apply dec_aval. Qed.
Lemma dec_vok n v : vok n v -> iscx (aval v) -> paired v -> vok n (dec v).
Proof.
  destruct v as [a|x]; [|intros; exact I]. intros HV HX HP. destruct (vok_rows HV HX) as (k & s & Es & E). destruct HV as [[(k' & Ek & HW) HL] HR].
  assert (k' = k) by congruence. subst k'. cbn [dec vok]. split; [split|].
  - exists k. cbn [join_la lx ljac join_jac jdata jidx]. rewrite (@sh_joinJ _ k s E), (@sh_join _ s Es). split; [reflexivity|]. destruct (jidx (ljac a)) as [m|] eqn:Em; cbn [option_map]; [|exact HW].
    cbn in HP. rewrite Em in HP. destruct HW as [Hm HW]. rewrite Es in Hm, HW. split; [cbn [join_idx sh]; rewrite Hm; exact (removelast_last (k :: s) 2)|]. intros r p Hr Hp. cbn [join_idx at_ join2 app].
    pose proof (HW r (p ++ [0]) Hr (@inb_snoc p s 0 Hp ltac:(lia))) as [A1 A2]. pose proof (HW r (p ++ [1]) Hr (@inb_snoc p s 1 Hp ltac:(lia))) as [B1 B2]. split; [exact A1|]. intros Hneg. cbn. f_equal; [apply A2; exact Hneg|]. apply B2.
    specialize (HP (r :: p)). cbn [app] in HP. rewrite <- HP. exact Hneg.
  - cbn [join_la lx llap]. rewrite (@sh_join _ s Es). apply sh_join. rewrite HL. exact Es.
  - intros Hw. cbn [join_la ljac join_jac jdata]. rewrite (rows_cons _ (@sh_joinJ _ k s E)). rewrite <- (rows_cons _ E). apply HR. unfold weak in *. cbn in Hw. destruct (jidx (ljac a)); [reflexivity|discriminate].
Qed.
Lemma als_dec args : als (map dec args) = map join_la (als args).
Proof. induction args as [|[a|x] l IH]; cbn; auto. f_equal. exact IH. Qed.
Lemma split_jent n s J i p k : jwf n s J -> jent (split_jac J) i (p ++ [k]) = comp k (jent J i p).
Proof.
  intros (m & Em & HW). unfold jent. cbn [split_jac jidx jdata]. assert (ER : rows (split2 (jdata J)) = rows (jdata J)) by (unfold rows; cbn [split2 sh]; rewrite Em; reflexivity). rewrite ER.
  destruct (jidx J) as [t|]; cbn [option_map].
  - rewrite comp_sumn. apply sumn_ext. intros r _. cbn [split_idx at_ split2]. change (r :: p ++ [k]) with ((r :: p) ++ [k]). rewrite rl, ll. destruct (Z.eqb _ _); [reflexivity|]. destruct k; reflexivity.
  - destruct (i <? rows (jdata J)); [|destruct k; reflexivity]. cbn [split2 at_]. change (i :: p ++ [k]) with ((i :: p) ++ [k]). rewrite rl, ll. reflexivity.
Qed.
Lemma split_awf n a : awf n a -> jrow1 (ljac a) -> awf n (split_la a) /\ jrow1 (ljac (split_la a)) /\ paired (AL (split_la a)).
Proof.
  intros [(k & Ek & HW) HL] HR. split; [split|split].
  - exists k. cbn [split_la lx ljac split_jac jdata jidx split2 sh]. rewrite Ek. split; [reflexivity|]. destruct (jidx (ljac a)) as [m|]; cbn [option_map]; [|exact HW]. destruct HW as [Hm HW]. split; [cbn [split_idx sh]; rewrite Hm; reflexivity|].
    intros r q Hr Hq. destruct (inb_snoc_inv _ Hq) as (p & c & -> & Hp & Hc). cbn [split_idx at_]. change (r :: p ++ [c]) with ((r :: p) ++ [c]). rewrite rl. cbn [split2 at_]. rewrite rl. rewrite ll. destruct (HW r p Hr Hp) as [H1 H2]. split; [exact H1|]. intros Hn. rewrite (H2 Hn). destruct c; reflexivity.
  - cbn [split_la lx llap split2 sh]. rewrite HL. reflexivity.
  - intros Hw. cbn [split_la ljac split_jac jdata] in *. unfold rows. cbn [split2 sh]. rewrite Ek. assert (weak (ljac a) = true) as Hw2 by (unfold weak in *; cbn in Hw; destruct (jidx (ljac a)); [reflexivity|discriminate]). specialize (HR Hw2). rewrite (rows_cons _ Ek) in HR. exact HR.
  - cbn. destruct (jidx (ljac a)); cbn [option_map]; [|exact I]. intros p. cbn. rewrite !rl. reflexivity.
Qed.

(* ---- exactness of the complex computation gives exactness of the stored real one ---- *)
Definition cx_args (n : nat) (args : list (arg R)) : Prop := forall v, In v args -> vok n v /\ iscx (aval v) /\ paired v.
Theorem enc_ok n f args a : cx_args n args -> arg_ok n f (map dec args) a -> jrow1 (ljac a) -> arg_ok n (rop f) args (split_la a) /\ jrow1 (ljac (split_la a)).
Proof.
  intros HC (O1 & O2 & O3 & O4) HR. destruct (split_awf O2 HR) as (S1 & S2 & _). split; [|exact S2]. set (xs := map (@aval R) args) in *.
  assert (HX : forall x, In x xs -> iscx x) by (intros x Hx; apply in_map_iff in Hx; destruct Hx as (v & <- & Hv); apply (HC v Hv)).
  assert (EA : forall b i q, b < length xs -> jent (ljac (nth b (map (@lift (R * R) CRing_CR) (map dec args)) la0)) i q = pr (fun b q => jent (ljac (nth b (map (@lift R CRing_R) args) la0)) i q) b q).
  { intros b i q Hb. unfold xs in Hb. rewrite map_length in Hb. rewrite !(@nth_map_in _ _ _ _ b (AX nd0) la0) by (rewrite ?map_length; exact Hb). rewrite (@nth_map_in _ _ dec args b (AX nd0) (AX nd0)) by exact Hb.
    assert (HI : In (nth b args (AX nd0)) args) by (apply nth_In; exact Hb). destruct (HC _ HI) as (V1 & V2 & V3). unfold pr. rewrite (@nth_map_in _ _ (@lift R CRing_R) args b (AX nd0) la0) by exact Hb. exact (@paired_jent n _ i q V1 V2 V3). }
  assert (EL : forall b q, b < length xs -> at_ (llap (nth b (map (@lift (R * R) CRing_CR) (map dec args)) la0)) q = pr (fun b q => at_ (llap (nth b (map (@lift R CRing_R) args) la0)) q) b q).
  { intros b q Hb. unfold xs in Hb. rewrite map_length in Hb. rewrite !(@nth_map_in _ _ _ _ b (AX nd0) la0) by (rewrite ?map_length; exact Hb). rewrite (@nth_map_in _ _ dec args b (AX nd0) (AX nd0)) by exact Hb. unfold pr. rewrite (@nth_map_in _ _ (@lift R CRing_R) args b (AX nd0) la0) by exact Hb. exact (dec_lap (nth b args (AX nd0)) q). }
  rewrite dec_avals in O1, O3, O4. fold xs in O1, O3, O4. pose proof O2 as [OJ _]. rewrite O1 in OJ.
  split; [cbn [split_la lx rop o_fwd]; rewrite O1; reflexivity|]. split; [exact S1|]. cbn [rop o_fwd split2 sh]. split.
  - intros i q Hq. destruct (inb_snoc_inv _ Hq) as (p & k & -> & Hp & Hk). cbn [split_la ljac]. rewrite (@split_jent n _ _ i p k OJ). rewrite (O3 i p Hp). unfold dspec. rewrite !xs_lift, dec_avals. fold xs. rewrite rop_chain by exact HX. f_equal.
    apply chain1_ext. intros b r Hb _. apply EA. rewrite map_length in Hb. exact Hb.
  - intros q Hq. destruct (inb_snoc_inv _ Hq) as (p & k & -> & Hp & Hk). cbn [split_la llap split2 at_]. rewrite rl, ll. rewrite (O4 p Hp). unfold lspec, hspec. rewrite !xs_lift, dec_avals. fold xs. rewrite rop_chain by exact HX.
    transitivity (radd (comp k (chain1 f (map join2 xs) p (fun a0 q => at_ (llap (nth a0 (map (@lift (R * R) CRing_CR) (map dec args)) la0)) q))) (comp k (sumn n (fun i => quad f (map join2 xs) p (fun a0 q => jent (ljac (nth a0 (map (@lift (R * R) CRing_CR) (map dec args)) la0)) i q) (fun a0 q => jent (ljac (nth a0 (map (@lift (R * R) CRing_CR) (map dec args)) la0)) i q))))); [destruct k; reflexivity|].
    apply f_equal2.
    + f_equal. apply chain1_ext. intros b r Hb _. apply EL. rewrite map_length in Hb. exact Hb.
    + rewrite comp_sumn. apply sumn_ext. intros i _. rewrite rop_quad by exact HX. f_equal. apply quad_ext; intros b r Hb _; apply EA; rewrite map_length in Hb; exact Hb.
Qed.

(* ---- smoothness ---- *)
Lemma join_jets x D H w : iscx x -> jets x D H w -> jets (join2 x) (fun q => (D (q ++ [0]), D (q ++ [1]))) (fun q => (H (q ++ [0]), H (q ++ [1]))) (fun t => join2 (w t)).
Proof.
  intros HX [J1 J2]. pose proof (join_sh HX) as E. split.
  - generalize J1. apply near_imp. intros t Et. cbn. rewrite Et. reflexivity.
  - intros p Hp. rewrite E in J2. split; cbn [join2 at_ fst snd]; apply J2; apply inb_snoc; auto.
Qed.
Lemma split_jets x D H w : jets x D H w -> jets (split2 x) (fun q => comp (last q 0) (D (removelast q))) (fun q => comp (last q 0) (H (removelast q))) (fun t => split2 (w t)).
Proof.
  intros [J1 J2]. split.
  - generalize J1. apply near_imp. intros t Et. cbn. rewrite Et. reflexivity.
  - intros q Hq. destruct (inb_snoc_inv _ Hq) as (p & k & -> & Hp & Hk). cbn [split2 at_]. rewrite rl, ll. destruct (J2 p Hp) as [H1 H2]. destruct k as [|k]; [exact H1|exact H2].
Qed.
Lemma rop_smooth f xs : (forall x, In x xs -> iscx x) -> smooth f (map join2 xs) -> smooth (rop f) xs.
Proof.
  intros HX HS D H W [C1 C2]. assert (HC : curves (map join2 xs) (pr D) (pr H) (fun t => map join2 (W t))).
  { split; [generalize C1; apply near_imp; intros t E; rewrite !map_length; exact E|]. intros a Ha. rewrite map_length in Ha. rewrite nth_join by exact Ha.
    apply jets_ext with (w := fun t => join2 (nth a (W t) nd0)); [generalize C1; apply near_imp; intros t E; symmetry; apply nth_join; lia|]. apply join_jets; [apply HX; apply nth_In; exact Ha|]. apply C2. exact Ha. }
  pose proof (split_jets (HS _ _ _ HC)) as HJ. eapply jets_eq; [| |exact HJ]; intros q Hq; destruct (inb_snoc_inv _ Hq) as (p & k & -> & Hp & Hk); cbv beta; rewrite rl, ll.
  - symmetry. apply rop_chain. exact HX.
  - rewrite rop_chain, rop_quad by exact HX. destruct k; reflexivity.
Qed.
Lemma join_eqa x y : iscx x -> eqa x y -> eqa (join2 x) (join2 y).
Proof. intros HX [E H]. split; [cbn; rewrite E; reflexivity|]. intros p Hp. pose proof (join_sh HX) as EX. cbn [join2 at_]. rewrite !H; [reflexivity|rewrite EX; apply inb_snoc; auto|rewrite EX; apply inb_snoc; auto]. Qed.
Lemma split_eqa x y : eqa x y -> eqa (split2 x) (split2 y).
Proof. intros [E H]. split; [cbn; rewrite E; reflexivity|]. intros q Hq. destruct (inb_snoc_inv _ Hq) as (p & k & -> & Hp & Hk). cbn [split2 at_]. rewrite !rl, !ll, H by exact Hp. reflexivity. Qed.
Lemma rop_ext f xs : (forall x, In x xs -> iscx x) -> fwd_ext f (map join2 xs) -> fwd_ext (rop f) xs.
Proof.
  intros HX HF ys HE. apply split_eqa. apply HF. clear HF. induction HE as [|x y xs ys E HE IH]; cbn; constructor; [apply join_eqa; [apply HX; left; reflexivity|exact E]|]. apply IH. intros z Hz. apply HX. right. exact Hz.
Qed.
