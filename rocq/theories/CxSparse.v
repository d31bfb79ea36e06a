(* CxSparse.v : SparseProg.v for programs with complex arrays: forward_laplacian returns for every sparsity threshold. *)
From Coq Require Import Reals Lra QArith.
From Coquelicot Require Import Coquelicot.
From Verif Require Export CxStatic SparseProg.
Set Implicit Arguments.
Open Scope nat_scope.

(* ---- specification (no /repo code): the conditions of safe_prim, for complex arrays ---- *)
(* a complex array, marked: does it depend on the inputs? *)
Definition cval : Type := (nd (R * R) * bool)%type.
(* a stored array as a complex array *)
Definition cjoin (x : fval) : cval := (join2 (fst x), snd x).
(* the operands that depend on the inputs *)
Definition cdeps (xs : list cval) : list (nd (R * R)) := map fst (filter snd xs).
(* no_new_axes *)
Definition cno_new_axes (xs : list cval) : Prop :=
  forall s t, bshapes (map (@sh (R * R)) (cdeps xs)) = Some s -> bshapes (map (@sh (R * R)) (map fst xs)) = Some t -> same_axes s t.
(* safe_prim for functions from complex arrays to complex arrays *)
Definition safe_ck (c : ckern) (xs : list cval) : Prop :=
  match c with
  | KLin _ => length (cdeps xs) <= 2
  | KMul | KSum _ => True
  | KDiv => snd (nth 1 xs (nd0, false)) = true -> cno_new_axes xs
  | KFun _ _ => length (cdeps xs) <= 2 /\ cno_new_axes xs
  | KRed axes f => bto (permute (keep_pos (ndim (nth 0 (map fst xs) nd0)) axes) (sh (nth 0 (map fst xs) nd0))) (sh (o_fwd f (map fst xs)))
  | KIndex g ok _ => length (cdeps xs) <= 2 /\ (ok = true -> forall p, inb p (i_shape g) -> snd (nth (fst (i_src g p)) xs (nd0, false)) = true)
  | KLinear _ | KOther _ | KDot _ => length (cdeps xs) = 1
  | KScatter g ok _ _ _ => length (cdeps xs) = 1 /\ (ok = true -> forall p, inb p (i_shape g) -> snd (nth (fst (i_src g p)) xs (nd0, false)) = true)
  end.
(* safe_prim, with functions of complex arrays *)
Definition csafe_prim (k : prim) (xs : list fval) : Prop :=
  match k with
  | PCplx c => (forall f, In f (prim_ops k) -> ne (sh (o_fwd f (map fst xs)))) /\ match c with CKern c => safe_ck c (map cjoin xs) | CCross _ | CAbs => True end
  | PSlogC => forall f, In f (prim_ops k) -> ne (sh (o_fwd f (map fst xs)))
  | _ => safe_prim k xs
  end.
(* every equation with a dependent operand is twice differentiable at the values it meets and safe; no scan has a dependent operand *)
Definition csafe_eq : @opk R prim -> list fval -> Prop := safe_eqP csafe_prim.
(* a program whose inputs are marked *)
Definition csafe_run : @jaxpr R prim -> bool -> list fval -> Prop := safe_runP csafe_prim.
Lemma safe_is_csafe k xs : safe_prim k xs -> csafe_prim k xs.
Proof. destruct k; try exact (fun H => H); [intros [_ []]|intros [_ []]]. Qed.

(* ---- decoding and encoding ---- *)
Lemma ne_snoc (s : shape) : ne (s ++ [2]) <-> ne s.
Proof.
  split.
  - intros (q & Hq). destruct (inb_snoc_inv _ Hq) as (p & k & -> & Hp & _). exists p. exact Hp.
  - intros (p & Hp). exists (p ++ [0]). apply inb_snoc; [exact Hp|lia].
Qed.
Lemma dec_good n v : goodv n v -> iscx (aval v) -> paired v -> goodv n (dec v).
Proof.
  destruct v as [a|x]; [|intros; exact I]. intros HG HX HP. pose proof (@good_vok R CRing_R n (AL a) HG) as HV. pose proof (@dec_vok n (AL a) HV HX HP) as [HW _]. destruct HG as (G1 & G2 & G3). cbn [dec goodv].
  pose proof (join_sh HX) as EX. cbn [aval] in EX, HX. split; [exact HW|]. split; [|cbn [join_la lx]; rewrite EX in G3; apply ne_snoc; exact G3].
  unfold jfull in *. cbn [join_la ljac join_jac jidx]. destruct (jidx (ljac a)) as [m|] eqn:Em; [|exact I]. cbn [option_map]. destruct G1 as [GJ _]. destruct (jwf_sparse GJ Em) as (k & Hk & _).
  destruct (vok_rows HV HX) as (k0 & s & Es & E0). destruct GJ as (k1 & E1 & GW). rewrite Em in GW. destruct GW as [Sm _]. rewrite Es in Sm. rewrite Sm in G2. cbn [tl] in G2. intros p Hp.
  assert (Sj : sh (join_idx m) = k1 :: s) by (cbn [join_idx sh]; rewrite Sm; exact (removelast_last (k1 :: s) 2)). rewrite Sj in Hp. cbn [tl] in Hp. destruct (G2 (p ++ [0]) ltac:(apply inb_snoc; [exact Hp|lia])) as (r & H1 & H2).
  exists r. unfold rows in *. rewrite Sj. rewrite Sm in H1. split; [exact H1|exact H2].
Qed.
Lemma enc_good n w : goodv n w -> goodv n (enc w).
Proof.
  destruct w as [a|x]; [|intros; exact I]. intros HG. pose proof (@good_vok _ CRing_CR n (AL a) HG) as [HV1 HV2]. destruct (split_awf HV1 HV2) as (S1 & _). destruct HG as (G1 & G2 & G3). cbn [enc goodv]. split; [exact S1|]. split; [|cbn [split_la lx split2 sh]; apply ne_snoc; exact G3].
  unfold jfull in *. cbn [split_la ljac split_jac jidx]. destruct (jidx (ljac a)) as [m|] eqn:Em; [|exact I]. cbn [option_map]. destruct G1 as [(k1 & E1 & GW) _]. rewrite Em in GW. destruct GW as [Sm _]. rewrite Sm in G2. cbn [tl] in G2.
  intros q Hq. cbn [split_idx sh] in Hq. rewrite Sm in Hq. cbn [app tl] in Hq. destruct (inb_snoc_inv _ Hq) as (p & k & -> & Hp & Hk). destruct (G2 p Hp) as (r & H1 & H2). exists r. unfold rows in *. cbn [split_idx sh]. rewrite Sm in *. split; [exact H1|].
  assert (EE : removelast (r :: p ++ [k]) = r :: p) by exact (rl (r :: p) k). cbn [split_idx at_]. rewrite EE. exact H2.
Qed.
(* what a complex value looks like in the specification *)
Definition cv (v : arg (R * R)) : cval := (aval v, is_al v).
Lemma cv_fst (l : list (arg (R * R))) : map fst (map cv l) = map (@aval (R * R)) l. Proof. rewrite map_map. reflexivity. Qed.
Lemma cv_deps (l : list (arg (R * R))) : cdeps (map cv l) = xs_of (als l).
Proof. unfold cdeps. induction l as [|[a|x] l IH]; [reflexivity| |]; cbn [map filter cv aval is_al fst snd]; rewrite ?IH; reflexivity. Qed.
Lemma cv_ndeps l : length (cdeps (map cv l)) = length (als l). Proof. rewrite cv_deps. apply xs_length. Qed.
Lemma cv_axes l : cno_new_axes (map cv l) -> shapes_ok l.
Proof. unfold cno_new_axes, shapes_ok. rewrite cv_deps, cv_fst. auto. Qed.
Lemma cv_nth l j : snd (nth j (map cv l) (nd0, false)) = is_al (nth j l (AX nd0)).
Proof. change (@nd0 (R * R) CRing_CR, false) with (cv (AX nd0)). rewrite map_nth. reflexivity. Qed.
Lemma cv_dec args : map cjoin (map fv args) = map cv (map dec args).
Proof. rewrite !map_map. apply map_ext. intros [a|x]; reflexivity. Qed.

Section Prim.
Context (c2r : bool) (th : Z) (n : nat) (Hn : 0 < n).
Lemma one_carrierC (args : list (arg (R * R))) x : als args <> [] -> map (@aval (R * R)) args = [x] -> exists a, args = [AL a] /\ lx a = x.
Proof. destruct args as [|[a|y] [|? ?]]; intros H E; try discriminate; [injection E as <-; eauto|]. exfalso. apply H. reflexivity. Qed.
Lemma ck_returns c (args : list (arg (R * R))) : (forall v, In v args -> goodv n v) -> als args <> [] -> ck_applies c (map (@aval (R * R)) args) -> ck_diff c (map (@aval (R * R)) args) ->
  ne (sh (o_fwd (ck_op c) (map (@aval (R * R)) args))) -> safe_ck c (map cv args) -> returns n (ck_op c) args (ck_run c c2r th args).
Proof.
  intros HG Hne HA HD NE HS. destruct c; cbn [ck_applies ck_diff ck_op ck_run safe_ck] in *; rewrite ?cv_ndeps, ?cv_fst in HS.
  - apply ew_linear_good; auto. apply HA.
  - destruct HA as [HL HB]. rewrite map_length in HL. destruct args as [|u [|v [|? ?]]]; try discriminate. apply (@mul_good _ CRing_CR n c2r th u v Hn Hne (HG u (or_introl eq_refl)) (HG v (or_intror (or_introl eq_refl))) HB NE).
  - destruct HA as [HL HB]. rewrite map_length in HL. destruct args as [|u [|v [|? ?]]]; try discriminate. apply (@div_good _ CRing_CR cinv n c2r th u v Hn Hne (HG u (or_introl eq_refl)) (HG v (or_intror (or_introl eq_refl))) HB NE).
    intros Hv. apply cv_axes. apply HS. cbn. exact Hv.
  - destruct HS as [HL HX]. apply ew_general_good; auto; [apply HA|apply cv_axes; exact HX].
  - destruct HA as (x & Ex & H1 & H2 & H3). destruct (one_carrierC _ Hne Ex) as (a & -> & <-). apply sum_rule_good; auto. exact (HG _ (or_introl eq_refl)).
  - destruct HA as [(x & Ex & H1 & H2 & H3) HF]. destruct (one_carrierC _ Hne Ex) as (a & -> & <-). cbn [map nth Verif.Wrap.aval] in *. apply redn_good; auto; [exact (HG _ (or_introl eq_refl))|apply HD|apply HD].
  - destruct HS as [HL HX]. apply index_rule_good; auto. intros Ho p Hp. rewrite <- cv_nth. apply HX; auto.
  - apply linear_good; auto.
  - apply dot_good; auto.
  - apply general_fn_good; auto. apply HD.
  - destruct HS as [HL HX]. apply scat_good; auto. intros Ho p Hp. rewrite <- cv_nth. apply HX; auto.
Qed.
(* the modulus *)
Lemma abs_good (a : lapl (R * R)) : good n a -> returns n ab_op [AL a] (wrap_fl (ew_rule ab_f ab_1 ab_2 0%Z (Some (cabs_rule (fun z => / cmod z)%R))) c2r th [AL a]).
Proof.
  intros HG. assert (HGv : forall v, In v [AL a] -> goodv n v) by (intros v [<-|[]]; exact HG). assert (Hne : als [AL a] <> []) by discriminate.
  assert (HB : bshapes (map (@sh (R * R)) (map (@aval (R * R)) [AL a])) <> None) by (cbn [map]; unfold bshapes; cbn [fold_left]; rewrite (@bshape2_bto_l [] (sh (aval (AL a)))) by apply bto_nil; discriminate).
  assert (NE : ne (sh (o_fwd (ew_op ab_f ab_1 ab_2) (map (@aval (R * R)) [AL a])))) by (cbn [ew_op o_fwd sh map]; rewrite ew_one_shape; apply HG).
  unfold ab_op. apply ew_good; auto. unfold jhj_trace. cbn [has].
  pose proof (@ew_setup _ CRing_CR ab_f ab_1 ab_2 n [AL a] Hn Hne (fun v Hv => @good_vok _ CRing_CR n v (HGv v Hv)) HB) as HS.
  pose proof (@ew_plan _ CRing_CR n [AL a] HGv (@shapes_all _ [AL a] eq_refl)) as HP. pose proof (@good_als _ CRing_CR n [AL a] HGv) as HGa.
  change (als [AL a]) with [a] in *. change (exs [AL a]) with (@nil (nd (R * R))) in *. cbn [map Verif.Wrap.aval] in *. change (mask_of [AL a]) with [true] in *.
  assert (HC : forall b args' idx, sliced n [a] [[]] b args' -> exists r0, cabs_rule (fun z => / cmod z)%R args' [] (@merge_of [true]) idx = Some r0 /\ sh r0 = sh (o_fwd (ew_op ab_f ab_1 ab_2) (xs_of args'))). 
  { intros b args' idx [L1 S1]. destruct args' as [|a' [|? ?]]; try discriminate.
    assert (Sa : sh (lx a') = []) by (destruct (S1 0%nat ltac:(cbn; lia)) as ((E & _) & _); cbn [nth] in E; rewrite <- E; cbn [bslice sh]; rewrite sax_nil; reflexivity).
    unfold cabs_rule. rewrite Sa. cbn [sheq list_eq_dec list_rec list_rect]. eexists. split; [reflexivity|]. cbn [sh xs_of map ew_op o_fwd]. rewrite ew_one_shape, Sa. reflexivity. }
  refine (@vmapped_good _ CRing_CR n (ew_op ab_f ab_1 ab_2) c2r 0%Z (Some (cabs_rule (fun z => / cmod z)%R)) [] [[]] [] (merge_of [true]) th [a] HS eq_refl eq_refl HGa NE (fun _ => HP) _ _).
  - intros d Sd Xd Dd. destruct d as [|a' [|? ?]]; try discriminate Xd.
    destruct (@vmapped_custom_total _ CRing_CR n (ew_op ab_f ab_1 ab_2) c2r 0%Z (cabs_rule (fun z => / cmod z)%R) [] [[]] [] (merge_of [true]) th [a'] Sd eq_refl Dd) as (r & E1 & E2).
    + intros brd b args' es _ _ S1 S2. destruct S2 as [L2 _]. destruct es; [|discriminate]. 
      assert (Sa : forall a2, args' = [a2] -> sh (lx a2) = []).
      { intros a2 ->. destruct S1 as [L1 S1]. destruct (S1 0%nat ltac:(cbn; lia)) as ((E & _) & _); cbn [nth] in E; rewrite <- E; cbn [bslice sh]; rewrite sax_nil; reflexivity. }
      destruct S1 as [L1 _]. destruct args' as [|a2 [|? ?]]; try discriminate. unfold cabs_rule. rewrite (Sa a2 eq_refl). cbn [sheq list_eq_dec list_rec list_rect]. eexists. split; [reflexivity|]. cbn [sh merged o_fwd]. change (@merge_of [true] (nd (R * R)) (xs_of [a2]) []) with [lx a2]. cbn [ew_op o_fwd sh]. rewrite ew_one_shape, (Sa a2 eq_refl). reflexivity.
    + exists r. split; [exact E1|]. rewrite E2. change (@merge_of [true] (nd (R * R)) (xs_of [a']) []) with (xs_of [a']). rewrite Xd. reflexivity.
  - intros b args' es o' R0 S1 S2 So HR. destruct S2 as [L2 _]. destruct es; [|discriminate]. destruct (HC _ _ (Some o') S1) as (r0 & E0 & S0). exists r0. split; [exact E0|]. rewrite S0. destruct S1 as [L1 _]. destruct args' as [|a' [|? ?]]; try discriminate. reflexivity.
Qed.
Lemma re_good (a : lapl (R * R)) : good n a -> good n (lmap re a).
Proof.
  intros ([(k & E & HW) HL] & G2 & G3). split; [split|split; [exact G2|exact G3]].
  - exists k. cbn [lmap lx ljac jmap jdata jidx ndmap sh]. split; [exact E|]. destruct (jidx (ljac a)) as [m|]; [|exact HW]. destruct HW as [W1 W2]. split; [exact W1|]. intros r p Hr Hp. destruct (W2 r p Hr Hp) as [A1 A2]. split; [exact A1|]. intros Hneg. exact (f_equal re (A2 Hneg)).
  - exact HL.
Qed.
Lemma of_out (f : op R) args (a : lapl R) : goodv n (AL a) -> lx a = o_fwd f (map (@aval R) args) -> returns n f args (Some (AL a)).
Proof. intros H1 H2. exists a. auto. Qed.
Lemma cx_returns c args : okl n args -> als args <> [] -> cx_applies c (map (@aval R) args) -> cx_diff c (map (@aval R) args) ->
  match c with CCross XComplex | CCross XFloat => True | _ => Forall paired args end -> csafe_prim (PCplx c) (map fv args) -> returns n (cx_op c) args (cx_run c c2r th args).
Proof.
  intros HG Hne HA HD HP [NE HS]. rewrite fv_fst in NE. specialize (NE _ (or_introl eq_refl)). cbn [prim_op] in NE. 
  destruct c as [c|k|]; cbn [cx_applies cx_diff cx_op cx_run] in *.
  - destruct HA as [HX HA]. rewrite cv_dec in HS. rewrite <- dec_avals in HA, HD.
    assert (HGd : forall v, In v (map dec args) -> goodv n v).
    { intros v Hv. apply in_map_iff in Hv. destruct Hv as (u & <- & Hu). apply (@dec_good n u (HG u Hu)); [apply HX; apply in_map; exact Hu|]. rewrite Forall_forall in HP. apply HP. exact Hu. }
    assert (Hne' : als (map dec args) <> []) by (rewrite als_dec; destruct (als args); [congruence|discriminate]).
    cbn [rop o_fwd split2 sh] in NE. rewrite <- dec_avals in NE. apply (proj1 (ne_snoc _)) in NE.
    destruct (@ck_returns c (map dec args) HGd Hne' HA HD NE HS) as (a & E & Ga & Ea). rewrite E. cbn [option_map enc]. apply of_out; [exact (@enc_good n (AL a) Ga)|]. cbn [rop o_fwd]. rewrite <- dec_avals, <- Ea. reflexivity.
  - destruct HA as (x & Ex & HX). destruct (one_carrier _ Hne Ex) as (a & -> & <-). specialize (HG _ (or_introl eq_refl)).
    assert (HP' : match k with XComplex | XFloat => True | _ => paired (AL a) end) by (destruct k; auto; inversion HP; assumption).
    assert (HDG : iscx (lx a) -> paired (AL a) -> good n (join_la a)) by (intros H1 H2; exact (@dec_good n (AL a) HG H1 H2)).
    destruct (cross_run k [AL a]) as [r|] eqn:Er; [|destruct k; discriminate Er]. destruct (@cross_ok n k (AL a) r (@good_vok R CRing_R n (AL a) HG) Hne HX HP' Er) as (b & -> & (O1 & O2 & _) & _). apply of_out; [|exact O1].
    destruct k; cbn [cross_run dec enc map wrap_elementwise option_map cross_in] in *; injection Er as <-.
    + exact (re_good (HDG HX HP')).
    + destruct (HDG HX HP') as (_ & G2 & G3). split; [exact O2|]. split; [exact G2|exact G3].
    + pose proof (HDG HX HP') as (W & G2 & G3). apply (@enc_good n (AL (lmap cconj (join_la a)))). split; [|split; [exact G2|exact G3]]. destruct W as [(k & E & HW) HL]. split; [|exact HL].
      exists k. cbn [lmap lx ljac jmap jdata jidx ndmap sh] in *. split; [exact E|]. destruct (jidx (ljac (join_la a))) as [m|]; [|exact HW]. destruct HW as [W1 W2]. split; [exact W1|]. intros r p Hr Hp. destruct (W2 r p Hr Hp) as [A1 A2]. split; [exact A1|]. intros Hneg. refine (eq_trans (f_equal cconj (A2 Hneg)) _). unfold cconj. cc. f_equal; ring.
    + destruct HG as (W & G2 & G3). apply (@enc_good n (AL (lmap to_complex a))). split; [|split; [exact G2|exact G3]]. destruct W as [(k & E & HW) HL]. split; [|exact HL].
      exists k. cbn [lmap lx ljac jmap jdata jidx ndmap sh] in *. split; [exact E|]. destruct (jidx (ljac a)) as [m|]; [|exact HW]. destruct HW as [W1 W2]. split; [exact W1|]. intros r p Hr Hp. destruct (W2 r p Hr Hp) as [A1 A2]. split; [exact A1|]. intros Hneg. exact (f_equal to_complex (A2 Hneg)).
    + exact HG.
  - destruct HA as (x & Ex & HX). destruct (one_carrier _ Hne Ex) as (a & -> & <-). inversion HP as [|? ? HPa _]; subst. pose proof (@dec_good n (AL a) (HG _ (or_introl eq_refl)) HX HPa) as Gd. cbn [dec goodv] in Gd.
    destruct (abs_good Gd) as (b & E & Gb & Eb). cbn [abs_run dec]. unfold complex_abs. rewrite E. cbn [option_map re_arg]. apply of_out; [exact (re_good Gb)|]. cbn [lmap lx abs_op o_fwd map Verif.Wrap.aval] in *. rewrite Eb. reflexivity.
Qed.
Lemma slogC_returns args : okl n args -> als args <> [] -> cx_square (map (@aval R) args) -> Forall paired args -> (forall f, In f (prim_ops PSlogC) -> ne (sh (o_fwd f (map (@aval R) args)))) ->
  exists rs, slogC_run c2r th args = Some rs /\ map (@aval R) rs = map (fun f => o_fwd f (map (@aval R) args)) (prim_ops PSlogC) /\ okl n rs.
Proof.
  intros HG Hne (x & L & m & Ex & Hs) HP NE. destruct (one_carrier _ Hne Ex) as (a & -> & <-). inversion HP as [|? ? HPa _]; subst. specialize (HG _ (or_introl eq_refl)).
  assert (HX : iscx (lx a)) by (exists (L ++ [m; m]); exact Hs). pose proof (@dec_good n (AL a) HG HX HPa) as Gd. cbn [dec goodv] in Gd.
  pose proof (NE _ (or_intror (or_introl eq_refl))) as N2. pose proof (NE _ (or_introl eq_refl)) as N1. cbn [map Verif.Wrap.aval] in *.
  destruct (@slog_good _ CRing_CR phase_det mat_invC n c2r (join_la a) L m Hn Gd (@sh_join (lx a) _ Hs) invC_ext1) as (b & E & Gb & Eb).
  { cbn [op_phase op_logdet o_fwd nth split2 sh join_la lx] in *. apply (proj1 (ne_snoc _)) in N1. exact N1. }
  assert (HR : exists rs, slogC_run c2r th [AL a] = Some rs) by (unfold slogC_run, slogdet_complex; cbn [dec]; rewrite E; cbn [bind option_map]; eauto). destruct HR as (rs & HR). exists rs. split; [exact HR|].
  destruct (@slogC_ok n c2r th a L m Hn (@good_vok R CRing_R n (AL a) HG) Hs HPa rs HR) as (s & d & -> & [(O1 & O2 & _) _] & [(Q1 & Q2 & _) _] & I1 & I2). cbn [map Verif.Wrap.aval prim_ops] in *. rewrite O1, Q1. split; [reflexivity|].
  intros v [<-|[<-|[]]]; cbn [goodv]; (split; [assumption|]); (split; [unfold jfull; rewrite ?I1, ?I2; exact I|]); rewrite ?O1, ?Q1; assumption.
Qed.
Theorem cprim_returns k ms ms' args : okl n args -> mok ms args -> mk_prim k ms = Some ms' -> als args <> [] -> applies k (map (@aval R) args) -> diff_at k (map (@aval R) args) -> csafe_prim k (map fv args) ->
  exists rs, eval_prim (prim_reg c2r) c2r k (prim_ops k) th args = Some rs /\ map (@aval R) rs = map (fun f => o_fwd f (map (@aval R) args)) (prim_ops k) /\ okl n rs.
Proof.
  intros HG HM HK Hne HA HD HS. assert (D : (exists c, k = PCplx c) \/ k = PSlogC \/ csafe_prim k (map fv args) = safe_prim k (map fv args)) by (destruct k; eauto).
  destruct D as [(c & ->)|[->|D]]; [| |rewrite D in HS; apply prim_returns; assumption].
  - unfold eval_prim. cbn [prim_reg prim_ops prim_op]. cbv beta. apply one_returns. apply cx_returns; auto. destruct c as [c|k|]; cbn [mk_prim] in HK; [apply (@mok_need _ _ _ _ HM HK)| |apply (@mok_need _ _ _ _ HM HK)]. destruct k; auto; apply (@mok_need _ _ _ _ HM HK).
  - unfold eval_prim. cbn [prim_reg]. cbn [csafe_prim] in HS. rewrite fv_fst in HS. apply slogC_returns; auto. apply (@mok_need _ _ _ _ HM HK).
Qed.
End Prim.

(* ---- programs ---- *)
Section Prog.
Context (c2r : bool) (th : Z) (n : nat) (Hn : 0 < n).
Notation reg := (prim_reg c2r). Notation nreg := (name_reg c2r).
Notation step := (step_of reg nreg c2r false th).
Notation jeval := (jrun reg nreg c2r false th).
Notation instr_at := (instr_of reg nreg c2r false th).
Notation minstr e := (Instr (map mlit (ins_of e)) (outs_of e) (mk_of (kind_of e))).
(* what is proved by induction over nested programs *)
Definition csp (k : @opk R prim) : Prop := forall ms ms' args ys, okl n args -> mok ms args -> mk_of k ms = Some ms' -> csafe_eq k (map fv args) -> plain_of k (vals args) = Some ys ->
  exists rs, step k args = Some rs /\ vals rs = ys /\ okl n rs.
Lemma csp_exec es : (forall e, In e es -> csp (kind_of e)) -> forall E F P P1 M M1, oke n E -> img fv E F -> img (@aval R) E P -> menv M E -> gexec F (map (fun e => (finstr e, csafe_eq (kind_of e))) es) ->
  exec0 M (map (fun e => minstr e) es) = Some M1 -> exec0 P (map (@pinstr_of R CRing_R prim) es) = Some P1 -> exists E1, exec0 E (map instr_at es) = Some E1 /\ oke n E1 /\ img (@aval R) E1 P1.
Proof.
  induction es as [|e es IH]; intros HT E F P P1 M M1 HE HF HP HM HG HK HX; cbn [map gexec exec0] in *; [injection HX as <-; eauto|].
  unfold exec0_1 in *. cbn [instr_of pinstr_of finstr i_in i_out i_step] in *.
  destruct (read0_many M (map mlit (ins_of e))) as [ms|] eqn:Rm; [|discriminate]. destruct (mk_of (kind_of e) ms) as [ms'|] eqn:Km; [|discriminate]. destruct (write0_many M (outs_of e) ms') as [M2|] eqn:Wm; [|discriminate].
  assert (RF : read0_many F (map flit (ins_of e)) = option_map (map fv) (read0_many E (map (@plain_atom R) (ins_of e)))) by (apply img_read; [exact HF|intros [v|x]; reflexivity]).
  assert (RP : read0_many P (ins_of e) = option_map vals (read0_many E (map (@plain_atom R) (ins_of e)))).
  { rewrite <- (map_id (ins_of e)) at 1. apply img_read; [exact HP|intros [v|x]; reflexivity]. }
  rewrite RF in HG. rewrite RP in HX. destruct (read0_many E (map (@plain_atom R) (ins_of e))) as [xs|] eqn:Er; cbn [option_map] in *; [|discriminate].
  destruct HG as [G1 G2]. destruct (plain_of (kind_of e) (vals xs)) as [zs|] eqn:Ep; [|discriminate].
  pose proof (@menv_read M E (ins_of e) HM ms xs Rm Er) as Mx.
  destruct (HT e (or_introl eq_refl) ms ms' xs zs (@oke_read n E _ xs HE Er) Mx Km G1 Ep) as (ys & Es & <- & Oy). rewrite Es.
  pose proof (@img_write _ _ (@aval R) (outs_of e) E P ys HP) as WP. destruct (write0_many P (outs_of e) (vals ys)) as [P2|]; [|discriminate]. destruct (write0_many E (outs_of e) ys) as [E2|] eqn:We; [|destruct WP].
  pose proof (@img_write _ _ fv (outs_of e) E F ys HF) as WF. rewrite We in WF. destruct (write0_many F (outs_of e) (map fv ys)) as [F2|] eqn:Wf; [|destruct WF].
  assert (EF : fplain (kind_of e) (outs_of e) (map fv xs) = Some (map fv ys)).
  { unfold fplain. rewrite fv_fst, fv_snd, fv_ex, Ep.
    assert (EFl : (if existsb (@is_al R) xs then dep_of (kind_of e) (map (@is_al R) xs) else Some (map (fun _ => false) (outs_of e))) = Some (map (@is_al R) ys)).
    { destruct (existsb (@is_al R) xs) eqn:Ex; [apply (@dep_all c2r th (kind_of e) xs ys Ex Es)|]. rewrite step_if, plain_exist, Ex in Es. cbn [negb] in Es. destruct (plain_of _ _) as [ps|]; [|discriminate]. cbn in Es. injection Es as <-. rewrite map_map. cbn [is_al]. f_equal. apply const_flags. rewrite <- (write0_len _ _ _ We), map_length. reflexivity. }
    rewrite EFl, comb_fv. reflexivity. }
  rewrite EF, Wf in G2. assert (HM2 : menv M2 E2) by exact (@menv_write (outs_of e) M E ms' ys M2 E2 HM (@mk_all c2r th (kind_of e) ms ms' xs ys Mx Km Es) Wm We).
  apply (IH (fun e' He => HT e' (or_intror He)) E2 F2 P2 P1 M2 M1 (@oke_write n _ _ _ _ HE Oy We) WF WP HM2 G2 HK HX).
Qed.
Lemma csp_run j : (forall k, In k (subops j) -> csp k) -> forall closed ms ms' args ys, okl n args -> mokw ms args -> mk_run j closed ms = Some ms' -> csafe_run j closed (map fv args) -> plain_run j closed (vals args) = Some ys -> exists rs, jeval j closed args = Some rs /\ vals rs = ys /\ okl n rs.
Proof.
  intros HT closed ms ms' args ys Ha HM HK HS HP. rewrite jrun_eq. rewrite plain_run_eq in HP. unfold csafe_run in HS. rewrite safe_run_eqP in HS. fold csafe_eq in HS. rewrite mk_run_eq in HK. unfold runb. unfold run0 in *. unfold init0 in *. cbn [code_of pcode_of c_consts c_ins c_eqns c_outs] in *.
  assert (HC : consts_of j closed = map (@AX R) (if closed then j_cs j else [])) by (unfold consts_of; destruct closed; reflexivity). rewrite HC.
  assert (HC2 : (if closed then map (fun c : nd R => (c, false)) (j_cs j) else []) = map fv (map (@AX R) (if closed then j_cs j else []))) by (rewrite map_map; destruct closed; reflexivity). rewrite HC2 in HS.
  rewrite <- (avals_AX (if closed then j_cs j else [])) in HP. pose proof (fun ms0 => @mokw_AX ms0 (if closed then j_cs j else [])) as Mcs. set (cs := map (@AX R) (if closed then j_cs j else [])) in *.
  assert (Ocs : okl n cs) by (intros v Hv; apply in_map_iff in Hv; destruct Hv as (x & <- & _); exact I).
  change (match match @write0_many fval (fun _ => None) (j_cvs j) (map fv cs) with Some E => @write0_many fval E (j_ivs j) (map fv args) | None => None end with Some E => gexec E (map (fun e => (finstr e, csafe_eq (kind_of e))) (j_es j)) | None => True end) in HS.
  destruct (write0_many (fun _ => None) (j_cvs j) (if closed then map (fun _ => true) (j_cs j) else [])) as [M0|] eqn:A1; [|discriminate]. destruct (write0_many M0 (j_ivs j) ms) as [M1|] eqn:A2; [|discriminate]. destruct (exec0 M1 _) as [M2|] eqn:A3; [|discriminate].
  pose proof (@img_write _ _ (@aval R) (j_cvs j) (fun _ => None) (fun _ => None) cs (fun _ => eq_refl)) as W1. pose proof (@img_write (arg R) fval fv (j_cvs j) (fun _ => None) (fun _ => None) cs (fun _ => eq_refl)) as V1.
  destruct (write0_many (fun _ => None) (j_cvs j) (vals cs)) as [Pc|]; [|discriminate]. destruct (write0_many (fun _ => None) (j_cvs j) cs) as [Ec|] eqn:Wc; [|destruct W1]. destruct (write0_many (fun _ => None) (j_cvs j) (map fv cs)) as [Fc|]; [|destruct V1].
  assert (O0 : oke n (fun _ => None)) by (intros v x H; discriminate). pose proof (@oke_write n _ _ _ _ O0 Ocs Wc) as Oc.
  pose proof (@img_write _ _ (@aval R) (j_ivs j) Ec Pc args W1) as W2. pose proof (@img_write (arg R) fval fv (j_ivs j) Ec Fc args V1) as V2.
  destruct (write0_many Pc (j_ivs j) (vals args)) as [P0|]; [|discriminate]. destruct (write0_many Ec (j_ivs j) args) as [E0|] eqn:Wi; [|destruct W2]. destruct (write0_many Fc (j_ivs j) (map fv args)) as [F0|]; [|destruct V2].
  assert (K0 : menv M0 Ec) by (refine (@menv_write _ _ _ _ _ _ _ _ (Mcs _) A1 Wc); intros v a H; discriminate).
  assert (K1 : menv M1 E0) by exact (@menv_write _ _ _ _ _ _ _ K0 HM A2 Wi).
  pose proof (@oke_write n _ _ _ _ Oc Ha Wi) as Oi. destruct (exec0 P0 (map (@pinstr_of R CRing_R prim) (j_es j))) as [P1|] eqn:X; [|discriminate].
  assert (HKs : forall e, In e (j_es j) -> csp (kind_of e)) by (intros e He; apply HT; unfold subops; apply in_map_iff; exists e; split; auto).
  destruct (@csp_exec (j_es j) HKs E0 F0 P0 P1 M1 M2 Oi V2 W2 K1 HS A3 X) as (E1 & XE & OE & IE).
  rewrite XE. assert (RP : read0_many P1 (j_os j) = option_map vals (read0_many E1 (map (@plain_atom R) (j_os j)))).
  { rewrite <- (map_id (j_os j)) at 1. apply img_read; [exact IE|intros [v|x]; reflexivity]. }
  rewrite RP in HP. destruct (read0_many E1 (map (@plain_atom R) (j_os j))) as [rs|] eqn:Er; [|discriminate]. cbn in HP. injection HP as <-. exists rs. split; [reflexivity|]. split; [reflexivity|]. apply (@oke_read n E1 _ rs OE Er).
Qed.
Lemma csp_all k : csp k.
Proof.
  apply (@opk_all R prim csp); clear k.
  - intros key fs ms ms' args ys HG HM HK HS HP. destruct (existsb (@is_al R) args) eqn:Ex; [|apply plain_step; auto]. rewrite step_if. assert (Epl : forallb isplain args = false) by (rewrite plain_exist, Ex; reflexivity). rewrite Epl.
    unfold csafe_eq in HS. cbn [safe_eqP mk_of] in HS, HK. rewrite fv_ex, fv_fst in HS. destruct (HS Ex) as (-> & H1 & H2 & H3). cbn in HP. injection HP as <-. apply (@cprim_returns c2r th n Hn key ms ms' args HG HM HK (plain_als _ Epl) H1 H2 H3).
  - intros fs ms ms' args ys HG HM HK HS HP. destruct (existsb (@is_al R) args) eqn:Ex; [|apply plain_step; auto]. exfalso. unfold csafe_eq in HS. cbn [safe_eqP] in HS. rewrite fv_ex in HS. exact (HS Ex).
  - intros name j IH ms ms' args ys HG HM HK HS HP. destruct (existsb (@is_al R) args) eqn:Ex; [|apply plain_step; auto]. rewrite step_if. assert (Epl : forallb isplain args = false) by (rewrite plain_exist, Ex; reflexivity). rewrite Epl.
    change (mk_of (KPjit name j) ms) with (match name_prim name with Some key => mk_prim key ms | None => mk_run j true ms end) in HK.
    change (existsb snd (map fv args) = true -> match name_prim name with
      | Some key => (forall ys, length ys = length (map fv args) -> plain_run j true ys = Some (map (fun f => o_fwd f ys) (prim_ops key))) /\ applies key (map fst (map fv args)) /\ diff_at key (map fst (map fv args)) /\ csafe_prim key (map fv args)
      | None => csafe_run j true (map fv args) end) in HS.
    rewrite fv_ex, fv_fst, map_length in HS. specialize (HS Ex). rewrite pjit_plain in HP. destruct (name_prim name) as [key|] eqn:Ek.
    + destruct HS as (H0 & H1 & H2 & H3). destruct (@name_regs c2r name key Ek) as (rl & E1 & E2). rewrite E1. rewrite H0 in HP by (rewrite map_length; reflexivity). injection HP as <-.
      pose proof (@cprim_returns c2r th n Hn key ms ms' args HG HM HK (plain_als _ Epl) H1 H2 H3) as HX. unfold eval_prim in HX. rewrite E2 in HX. exact HX.
    + assert (E1 : nreg name = None) by (unfold name_reg; rewrite Ek; reflexivity). rewrite E1. apply (@csp_run j IH true ms ms' args ys HG (proj2 HM) HK HS HP).
  - intros nc nk T rv j IH ms ms' args ys HG HM HK HS HP. destruct (existsb (@is_al R) args) eqn:Ex; [|apply plain_step; auto]. exfalso. change (existsb snd (map fv args) = true -> False) in HS. rewrite fv_ex in HS. auto.
Qed.
Theorem csafe_returns j ms args ys : okl n args -> mokw ms args -> mk_run j true ms <> None -> csafe_run j true (map fv args) -> plain_run j true (vals args) = Some ys -> exists rs, jeval j true args = Some rs /\ vals rs = ys /\ okl n rs.
Proof. intros HG HM HK HS HP. destruct (mk_run j true ms) as [ms'|] eqn:E; [|congruence]. apply (@csp_run j (fun k _ => @csp_all k) true ms ms' args ys HG HM E HS HP). Qed.
End Prog.

(* ---- forward_laplacian ---- *)
Theorem forward_returnsC c2r t j ws xs ys : 0 < total (map (@sh R) xs) -> wts_ok ws xs -> smallj j -> (forall x, In x xs -> ne (sh x)) -> typed_complex j -> csafe_run j true (map (fun x => (x, true)) xs) ->
  plain_run j true xs = Some ys -> exists rs, forward_laplacian (prim_reg c2r) (name_reg c2r) c2r t j ws (map (@AX R) xs) = Some rs /\ map (@aval R) rs = ys.
Proof.
  intros Hn HW HS Hne HTy HR HP. unfold forward_laplacian. cbv zeta. set (th := threshold_of t (map (fun v => prod (sh (aval v))) (map (@AX R) xs))). rewrite init_plain. rewrite jrun_frees_nothing by exact HS.
  destruct (@csafe_returns c2r th (total (map (@sh R) xs)) Hn j _ (seeds (0 <? th)%Z ws xs) ys (@seeds_good _ ws xs HW Hne) (mokw_falses (j_ivs j) _) HTy) as (rs & E1 & E2 & _); [rewrite seeds_fv; exact HR|rewrite seeds_values; exact HP|]. eauto.
Qed.
