(* TotalCalc.v : in dense mode forward_laplacian returns a result on programs, scans included (see Total.v). *)
From Coq Require Import Reals Lra.
From Coquelicot Require Import Coquelicot.
From Verif Require Export Total DepCalc.
Set Implicit Arguments.
Open Scope nat_scope.

Section DotTotal.
Context {A : Type} {RA : CRing A}.
Notation aval := (@aval A).
Open Scope cr_scope.
Lemma dotlast_total n c2r th u v px py K so : (0 < n)%nat -> vok n u -> vok n v -> Forall (@dense_arg A) [u; v] -> sh (aval u) = px ++ [K] -> sh (aval v) = py ++ [K] -> length px = length py -> bshape2 px py = Some so ->
  exists r, wrap_fl dotlast_rule c2r th [u; v] = Some r.
Proof.
  intros Hn Hu Hv HD Eu Ev HL HB.
  assert (HBn : bshape2 px py <> None) by congruence.
  assert (Nu : (0 < ndim (aval u))%nat) by (unfold ndim; rewrite Eu, app_length; cbn; lia).
  assert (Nv : (0 < ndim (aval v))%nat) by (unfold ndim; rewrite Ev, app_length; cbn; lia).
  assert (HV : forall w, In w [u; v] -> vok n w) by (intros w [<-|[<-|[]]]; auto).
  assert (HND : forall w, In w [u; v] -> (0 < ndim (aval w))%nat) by (intros w [<-|[<-|[]]]; auto).
  assert (Na : forall a, In a (als [u; v]) -> (0 < ndim (lx a))%nat) by (intros a Ha; apply In_als in Ha; apply (HND _ Ha)).
  assert (Ne : forall x, In x (exs [u; v]) -> (0 < ndim x)%nat).
  { intros x Hx. destruct u as [u|u], v as [v|v]; cbn [exs flat_map app In] in Hx; intuition (subst; auto). }
  apply (@wrap_total A RA n dotlast_rule c2r th [u; v] _ _ HV HD (@canon_last _ (fun a => ndim (lx a)) (als [u; v]) Na) (@canon_last _ (fun x => ndim x) (exs [u; v]) Ne)).
  intros Hne. cbn [r_fn dotlast_rule f_op r_fl r_custom].
  destruct (Nat.eq_dec (length (als [u; v])) 1) as [E|E].
  { exists nd0. split; [|apply bto_nil]. unfold jhj_trace. rewrite E. reflexivity. }
  destruct u as [a|x], v as [b|y]; cbn in E, Hne; try congruence. clear E Hne. cbn [Verif.Wrap.aval] in *.
  change (als [AL a; AL b]) with [a; b] in *. change (exs [AL a; AL b]) with (@nil (nd A)) in *. change (merge_of (mask_of [AL a; AL b])) with mgtt. cbn [map Verif.Wrap.aval] in *.
  assert (HS : setup n op_dotlast mgtt [a; b] [[(ndim (lx a) - 1)%nat]; [(ndim (lx b) - 1)%nat]] [] []).
  { constructor; auto.
    - discriminate.
    - intros w [<-|[<-|[]]]; [apply Hu|apply Hv].
    - apply (merge_of_ok [true; true]).
    - split; [reflexivity|]. intros i Hi. destruct i as [|[|i]]; [| |cbn in Hi; lia]; cbn [nth xs_of map]; (split; [repeat constructor; intros []|intros d [<-|[]]; lia]).
    - split; [reflexivity|]. intros i Hi. cbn in Hi. lia.
    - exact (@dotlast_batched _ _ (lx a) (lx b) px py K Eu Ev HBn). }
  destruct (@vmapped_dot_total A RA n op_dotlast c2r 827%Z [] _ _ mgtt th [a; b] HS eq_refl (@dotlast_core _ _ mgtt (lx a) (lx b) px py K (merge_of_ok [true; true]) Eu Ev)) as (r & E1 & E2).
  - intros ys es Ly Le Hsh. destruct es; [|discriminate].
    assert (SX : forall (w : lapl A) pre, sh (lx w) = pre ++ [K] -> permute (sax (ndim (lx w)) [(ndim (lx w) - 1)%nat]) (sh (lx w)) = [last (sh (lx w)) 0%nat]).
    { intros w pre E. unfold ndim. rewrite E, app_length. cbn [length]. rewrite Nat.add_1_r. replace (S (length pre) - 1)%nat with (length pre) by lia. rewrite sax_last. rewrite last_last. unfold permute. cbn [map]. rewrite nth_middle. reflexivity. }
    destruct (@dotlast_scalar _ _ a b px py K Eu Ev HL HBn) as [_ HSc].
    assert (E0 : sh (o_fwd op_dotlast (@mgtt (nd A) ys [])) = []).
    { apply HSc; [exact Ly|]. intros i Hi. rewrite Hsh by (cbn; lia). destruct i as [|[|i]]; [| |lia]; cbn [nth]; eapply SX; eauto. }
    change (prod (sh (o_fwd op_dotlast (@mgtt (nd A) ys []))) = 1%nat). rewrite E0. reflexivity.
  - reflexivity.
  - intros z [<-|[<-|[]]]; apply dense_weak; inversion HD as [|? ? D1 D2]; subst; [exact D1|inversion D2; subst; assumption].
  - exists r. split; [exact E1|]. rewrite E2. apply bto_refl.
Qed.
Theorem dot_general_total n c2r th D u v : (0 < n)%nat -> vok n u -> vok n v -> Forall (@dense_arg A) [u; v] -> dims_ok D (sh (aval u)) (sh (aval v)) ->
  exists r, dot_general c2r th D u v = Some r.
Proof.
  intros Hn Hu Hv HDe HD. unfold dot_general. set (sl := sh (aval u)) in *. set (sr := sh (aval v)) in *.
  destruct (negb (is_al u) && negb (is_al v)) eqn:E0; [eauto|].
  assert (Hne : als [u; v] <> []) by (destruct u, v; cbn in *; discriminate).
  inversion HDe as [|? ? D1 HD1]; subst. inversion HD1 as [|? ? D2 _]; subst.
  assert (HV1 : forall w, In w [u] -> vok n w) by (intros w [<-|[]]; auto). assert (HV2 : forall w, In w [v] -> vok n w) by (intros w [<-|[]]; auto).
  destruct (@fn_linear_total A RA n (Fn (iop_op (rearr sl (lc D) (lb D) (lf D sl) (length (rf D sr)) false)) None (Some (rearr sl (lc D) (lb D) (lf D sl) (length (rf D sr)) false, true, true))) INDEXING None c2r th [u] HV1 (Forall_cons _ D1 (Forall_nil _)) eq_refl) as (u' & EU).
  destruct (@fn_linear_total A RA n (Fn (iop_op (rearr sr (rc D) (rb D) (rf D sr) (length (lf D sl)) true)) None (Some (rearr sr (rc D) (rb D) (rf D sr) (length (lf D sl)) true, true, true))) INDEXING None c2r th [v] HV2 (Forall_cons _ D2 (Forall_nil _)) eq_refl) as (v' & EV).
  unfold index_rule. rewrite EU, EV. cbn [bind].
  destruct (@general_path A RA n c2r th D u v u' v' (AX nd0) Hn Hne Hu Hv HD EU EV) as (SU & SV & _). fold sl sr in SU, SV. set (K := prod (permute (lc D) sl)) in *.
  rewrite SU, SV. rewrite (@bshape2_app (lpre D sl sr) (rpre D sl sr) (dot_shape D sl sr) [K] [K] [K] eq_refl (pre_b HD) (bshape2_self _)). cbn [bind].
  assert (ES : sparse_arg u && sparse_arg v = false) by (destruct u as [a|x]; [cbn in D1 |- *; rewrite D1; reflexivity|reflexivity]). rewrite ES, andb_false_r.
  pose proof (wrap_dense _ _ _ (Forall_cons _ D1 (Forall_nil _)) EU) as D1'. pose proof (wrap_dense _ _ _ (Forall_cons _ D2 (Forall_nil _)) EV) as D2'.
  pose proof HD as (N1 & N2 & N3 & N4 & _).
  pose proof (@index_follows _ _ n _ true true c2r th u u' Hn Hu (@rearr_wf sl (lc D) (lb D) (length (rf D sr)) false N1 N2) EU) as (_ & VU & _).
  pose proof (@index_follows _ _ n _ true true c2r th v v' Hn Hv (@rearr_wf sr (rc D) (rb D) (length (lf D sl)) true N3 N4) EV) as (_ & VV & _).
  apply (@dotlast_total n c2r th u' v' (lpre D sl sr) (rpre D sl sr) K (dot_shape D sl sr) Hn VU VV (Forall_cons _ D1' (Forall_cons _ D2' (Forall_nil _))) SU SV (pre_len HD) (pre_b HD)).
Qed.
End DotTotal.

Section SlogTotal.
Context {A : Type} {RA : CRing A} (sgn ld mi : nd A -> nd A).
Open Scope cr_scope.
Lemma slog_rule_total n c2r (a : lapl A) L m : (0 < n)%nat -> vok n (AL a) -> dense_arg (AL a) -> sh (lx a) = L ++ [m; m] -> ext1 mi ->
  exists r, wrap_fl (slogdet_rule ld mi) c2r 0%Z [AL a] = Some r.
Proof.
  intros Hn Hv HD Hs He. assert (HV : forall v, In v [AL a] -> vok n v) by (intros v [<-|[]]; exact Hv). assert (HDA : Forall (@dense_arg A) [AL a]) by (constructor; [exact HD|constructor]).
  apply (@wrap_total A RA n (slogdet_rule ld mi) c2r 0%Z [AL a] _ _ HV HDA (canon_none _ _) (canon_none _ _)). intros Hne. cbn [r_fn slogdet_rule fn_rule f_op r_fl r_custom].
  pose proof (@fn_setup _ _ n (op_logdet ld mi) [AL a] Hn Hne HV (@logdet_ext A RA ld mi (lx a) He)) as HS.
  change (als [AL a]) with [a] in *. change (exs [AL a]) with (@nil (nd A)) in *. cbn [map Wrap.aval] in *. change (mask_of [AL a]) with [true] in *.
  assert (HL : forall z, In z [a] -> dense_la z) by (intros z [<-|[]]; apply dense_weak; exact HD).
  destruct (@vmapped_custom_total A RA n (op_logdet ld mi) c2r 0%Z (slogdet_jhj mi) [] _ _ (merge_of [true]) 0%Z [a] HS eq_refl HL) as (r & E1 & E2).
  - intros brd b args' es _ _ S1 S2. pose proof (@sliced_dense_la A RA n _ _ _ _ HL S1) as HD'. destruct S1 as [L1 S1]. destruct S2 as [L2 _]. destruct es; [|discriminate]. destruct args' as [|a' [|? ?]]; try discriminate.
    unfold slogdet_jhj, construct_jac_for. rewrite (@dense_some A RA _ (HD' a' (or_introl eq_refl))). cbn [bind]. eexists. split; [reflexivity|]. cbn [sh reshape merged o_fwd].
    change (@merge_of [true] (nd A) (xs_of [a']) []) with [lx a']. reflexivity.
  - exists r. split; [exact E1|]. rewrite E2. apply bto_refl.
Qed.
End SlogTotal.
(* ---- complex arrays ---- *)
Lemma ck_total n k c2r th (args : list (arg (R * R))) : (0 < n)%nat -> (forall v, In v args -> vok n v) -> Forall (@dense_arg (R * R)) args -> ck_applies k (map (@aval (R * R)) args) -> ck_diff k (map (@aval (R * R)) args) ->
  exists r, ck_run k c2r th args = Some r.
Proof.
  intros Hn HV HD HA HF. destruct k; cbn [ck_run ck_applies ck_diff] in *.
  - apply (@ew_linear_total (R * R) CRing_CR n); auto.
  - destruct HA as [HL HB]. rewrite map_length in HL. destruct (two_args _ HL) as (u & v & ->). apply (@mul_total (R * R) CRing_CR n c2r th u v Hn (HV u (or_introl eq_refl)) (HV v (or_intror (or_introl eq_refl))) HD HB).
  - destruct HA as [HL HB]. rewrite map_length in HL. destruct (two_args _ HL) as (u & v & ->). apply (@div_total (R * R) CRing_CR cinv n c2r th u v Hn (HV u (or_introl eq_refl)) (HV v (or_intror (or_introl eq_refl))) HD HB).
  - apply (@ew_general_total (R * R) CRing_CR n); auto. apply HA.
  - apply (@fn_linear_total (R * R) CRing_CR n); auto.
  - apply (@red_total (R * R) CRing_CR n); auto. apply HF.
  - apply (@fn_linear_total (R * R) CRing_CR n); auto.
  - apply (@fn_linear_total (R * R) CRing_CR n); auto.
  - destruct HA as (x & y & E & HX). destruct args as [|u [|v [|? ?]]]; try discriminate. cbn [map] in E. injection E as E1 E2. subst x y.
    destruct (@dot_general_total (R * R) CRing_CR n c2r th D u v Hn (HV u (or_introl eq_refl)) (HV v (or_intror (or_introl eq_refl))) HD HX) as (r & Hr). cbn [dot_prim]. rewrite Hr. cbn. eauto.
  - exact (@general_fn_total (R * R) CRing_CR n f c2r th args Hn HV HD (proj1 HF)).
  - exact (@scatter_total (R * R) CRing_CR n g ok filled dims_ok ids c2r th args HV HD).
Qed.
Lemma abs_total n c2r th (v : arg (R * R)) : (0 < n)%nat -> vok n v -> dense_arg v -> exists r, wrap_fl (ew_rule ab_f ab_1 ab_2 0%Z (Some (cabs_rule (fun z => / cmod z)%R))) c2r th [v] = Some r.
Proof.
  intros Hn Hv Hd. assert (HV : forall u, In u [v] -> vok n u) by (intros u [<-|[]]; exact Hv). assert (HD : Forall (@dense_arg (R * R)) [v]) by (constructor; [exact Hd|constructor]).
  assert (HB : bshapes (map (@sh (R * R)) (map (@aval (R * R)) [v])) <> None) by (cbn [map]; unfold bshapes; cbn [fold_left]; rewrite (@bshape2_bto_l [] (sh (aval v))) by apply bto_nil; discriminate).
  apply (@wrap_total (R * R) CRing_CR n (ew_rule ab_f ab_1 ab_2 0%Z (Some (cabs_rule (fun z => / cmod z)%R))) c2r th [v] _ _ HV HD (canon_nil _ _) (canon_nil _ _)). intros Hne. cbn [r_fn ew_rule f_op r_fl r_custom].
  pose proof (@ew_setup (R * R) CRing_CR ab_f ab_1 ab_2 n [v] Hn Hne HV HB) as HS. pose proof (proj1 (@als_dense (R * R) CRing_CR n [v] HV HD)) as HDA.
  destruct v as [a|x]; [|cbn in Hne; congruence]. cbn [als exs mask_of flat_map app map is_al length] in *.
  destruct (@vmapped_custom_total (R * R) CRing_CR n (ew_op ab_f ab_1 ab_2) c2r 0%Z (cabs_rule (fun z => / cmod z)%R) [] [[]] [] (merge_of [true]) th [a] HS eq_refl HDA) as (r & E1 & E2).
  2:{ exists r. split; [exact E1|]. rewrite E2. apply bto_refl. }
  intros brd bi args' es _ _ S1 S2. destruct S1 as [L1 S1]. destruct S2 as [L2 _]. destruct es; [|discriminate]. destruct args' as [|a' [|? ?]]; try discriminate.
  assert (Sa : sh (lx a') = []) by (destruct (S1 0%nat ltac:(cbn; lia)) as ((E & _) & _); cbn [nth] in E; rewrite <- E; cbn [bslice sh]; rewrite sax_nil; reflexivity).
  unfold cabs_rule. rewrite Sa. cbn [sheq list_eq_dec list_rec list_rect]. eexists. split; [reflexivity|]. cbn [sh merged o_fwd]. change (@merge_of [true] (nd (R * R)) (xs_of [a']) []) with [lx a']. cbn [ew_op o_fwd sh]. rewrite ew_one_shape, Sa. reflexivity.
Qed.
Lemma cx_total n k c2r th (args : list (arg R)) : (0 < n)%nat -> (forall v, In v args -> vok n v) -> Forall (@dense_arg R) args -> cx_applies k (map (@aval R) args) -> cx_diff k (map (@aval R) args) ->
  exists r, cx_run k c2r th args = Some r.
Proof.
  intros Hn HV HD HA HF. destruct k as [k|k|]; cbn [cx_run cx_applies cx_diff] in *.
  - destruct HA as [HX HA]. destruct (@ck_total n k c2r th (map dec args) Hn) as (r & Hr); [| |rewrite dec_avals; exact HA|rewrite dec_avals; exact HF|rewrite Hr; cbn; eauto].
    + intros u Hu. apply in_map_iff in Hu. destruct Hu as (v & <- & Hv). rewrite Forall_forall in HD. apply dec_vok; auto; [apply HX; apply in_map; exact Hv|apply dense_paired; auto].
    + apply Forall_forall. intros u Hu. apply in_map_iff in Hu. destruct Hu as (v & <- & Hv). rewrite Forall_forall in HD. apply dense_dec. auto.
  - destruct HA as (x & Ex & HX). destruct args as [|u [|? ?]]; try discriminate. destruct k; cbn [cross_run map]; destruct u; cbn; eauto.
  - destruct HA as (x & Ex & HX). destruct args as [|u [|? ?]]; try discriminate. cbn [map] in Ex. injection Ex as <-. unfold abs_run, complex_abs. inversion HD as [|? ? D1 _]; subst.
    destruct (@abs_total n c2r th (dec u) Hn) as (r & Hr); [apply dec_vok; [apply HV; left; reflexivity|exact HX|apply dense_paired; exact D1]|apply dense_dec; exact D1|rewrite Hr; cbn; eauto].
Qed.
Local Open Scope R_scope.
(* every primitive *)
Theorem prim_total n c2r th k args : (0 < n)%nat -> (forall v, In v args -> vok n v) -> Forall (@dense_arg R) args -> als args <> [] -> applies k (map (@aval R) args) -> diff_at k (map (@aval R) args) ->
  exists outs, eval_prim (prim_reg c2r) c2r k (prim_ops k) th args = Some outs.
Proof.
  intros Hn HV HD Hne HA HF. unfold eval_prim.
  assert (ONE : forall r : option (arg R), (exists v, r = Some v) -> exists outs, one r = Some outs) by (intros r (v & ->); cbn; eauto).
  destruct k; cbn [prim_reg applies diff_at prim_op prim_ops] in *; try (apply ONE).
  - apply (@ew_linear_total R CRing_R n); auto.
  - apply (@ew_general_total R CRing_R n); auto. apply HA.
  - destruct HA as [HL HB]. rewrite map_length in HL. destruct (two_args _ HL) as (u & v & ->). apply (@mul_total R CRing_R n c2r th u v Hn (HV u (or_introl eq_refl)) (HV v (or_intror (or_introl eq_refl))) HD HB).
  - destruct HA as [HL HB]. rewrite map_length in HL. destruct (two_args _ HL) as (u & v & ->). apply (@div_total R CRing_R Rinv n c2r th u v Hn (HV u (or_introl eq_refl)) (HV v (or_intror (or_introl eq_refl))) HD HB).
  - apply (@ew_general_total R CRing_R n); auto. apply HA.
  - apply (@ew_general_total R CRing_R n); auto.
  - apply (@fn_linear_total R CRing_R n); auto.
  - apply (@fn_linear_total R CRing_R n); auto.
  - apply (@red_total R CRing_R n); auto. apply HF.
  - apply (@fn_linear_total R CRing_R n); auto.
  - apply (@fn_linear_total R CRing_R n); auto.
  - destruct HA as (x & y & E & HX). destruct args as [|u [|v [|? ?]]]; try discriminate. cbn [map] in E. injection E as E1 E2. subst x y.
    destruct (@dot_general_total R CRing_R n c2r th D u v Hn (HV u (or_introl eq_refl)) (HV v (or_intror (or_introl eq_refl))) HD HX) as (r & Hr). cbn [dot_prim]. rewrite Hr. cbn. eauto.
  - unfold without_fl. eauto.
  - destruct HA as (x & L & m & Ex & Hs). destruct args as [|u [|? ?]]; try discriminate. cbn [map] in Ex. injection Ex as Ex. unfold slogdet_wrapper.
    assert (HW : exists r, wrap_fl (slogdet_rule log_absdet mat_inv) c2r 0%Z [u] = Some r).
    { destruct u as [a|y]; [|cbn; eauto]. cbn in Ex. subst x. inversion HD; subst. apply (@slog_rule_total R _ log_absdet mat_inv n c2r a L m Hn (HV _ (or_introl eq_refl)) H1 Hs inv_ext1). }
    destruct HW as (r & Hr). rewrite Hr. cbn. eauto.
  - apply (@cx_total n c c2r th args); auto.
  - unfold missing_rule, default_rule. cbn [map sequence]. destruct (@general_fn_total R CRing_R n f c2r th args Hn HV HD (proj1 HF)) as (r & Hr). rewrite Hr. cbn. eauto.
  - exact (@scatter_total R CRing_R n g ok filled dims_ok ids c2r th args HV HD).
  - destruct HA as (x & L & m & Ex & Hs). destruct (one_arg _ Ex Hne) as (a & -> & <-). inversion HD as [|? ? D1 _]; subst. unfold slogC_run, slogdet_complex. cbn [dec].
    assert (HX : iscx (lx a)) by (eexists; exact Hs). pose proof (dense_paired _ D1) as HP. pose proof (@dec_vok n (AL a) (HV _ (or_introl eq_refl)) HX HP) as HVd. cbn [dec] in HVd. pose proof (slz_sh _ _ _ Hs) as Ez.
    destruct (@slog_rule_total _ CRing_CR phase_det mat_invC n c2r (join_la a) L m Hn HVd (dense_dec _ D1) Ez invC_ext1) as (r & Hr).
    assert (HW : slogdet_wrapper phase_det phase_det mat_invC c2r th (AL (join_la a)) = Some (AX (phase_det (lx (join_la a))), r)) by (unfold slogdet_wrapper; rewrite Hr; reflexivity).
    destruct (@slogdet_sound _ CRing_CR phase_det phase_det mat_invC n c2r th (join_la a) L m _ Hn HVd Ez invC_ext1 (fun y Hy => Hy) HW) as (_ & b & Eb & _). cbn [snd] in Eb. rewrite Hr, Eb. cbn. eauto.
Qed.
Lemma custom_total n c2r th fs args : (0 < n)%nat -> (forall v, In v args -> vok n v) -> Forall (@dense_arg R) args -> (forall f, In f fs -> op_ext f (map (@aval R) args)) ->
  exists outs, list_rule c2r fs th args = Some outs.
Proof.
  intros Hn HV HD HF. unfold list_rule, list_returns. rewrite (dense_als HD). cbn [negb orb]. unfold default_rule. apply sequence_total. intros o Ho. apply in_map_iff in Ho. destruct Ho as (f & <- & Hf). apply (@general_fn_total R CRing_R n f c2r th args Hn HV HD (HF f Hf)).
Qed.

(* ---- whole programs ---- *)
(* specification: a scan whose carry keeps its shapes (what JAX requires of scan bodies), with a body that computes shapes from shapes *)
Definition scan_typed (j : @jaxpr R prim) (nc nk : nat) (xs : list (nd R)) : Prop :=
  shape_only_prog j /\ forall c t r, map (@sh R) c = map (@sh R) (firstn nk (skipn nc xs)) -> plain_run j false (firstn nc xs ++ c ++ map (fun x => row x t) (skipn (nc + nk) xs)) = Some r ->
    map (@sh R) (firstn nk r) = map (@sh R) (firstn nk (skipn nc xs)).
(* every primitive is twice differentiable at the values it meets, and scans are typed *)
Definition typed_run : @jaxpr R prim -> bool -> list (nd R) -> Prop := smooth_runP (fun _ _ => True) (fun _ => True) scan_typed.
(* no scan is executed *)
Definition smooth_noscan : @jaxpr R prim -> bool -> list (nd R) -> Prop := smooth_runP (fun _ _ => True) (fun _ => True) (fun _ _ _ _ => False).
Section Prog.
Context (c2r : bool) (th : Z) (n : nat) (Hn : (0 < n)%nat).
Notation vals := (map (@aval R)). Notation flags := (map (@is_al R)).
Notation smooth_eq := (smooth_eqP (fun _ _ => True) (fun _ => True) scan_typed). Notation smooth_run := (smooth_runP (fun _ _ => True) (fun _ => True) scan_typed).
Notation reg := (prim_reg c2r). Notation nreg := (name_reg c2r).
Notation step := (step_of reg nreg c2r false th).
Notation jeval := (jrun reg nreg c2r false th).
Notation instr_at := (instr_of reg nreg c2r false th).
Notation ok := (valid n (dfull n)).
Notation lnk := (@link c2r th n (dfull n) (fun _ _ => True) (fun _ => True) scan_typed).
Notation lenv' := (@lenv n (dfull n)).
Lemma lnk_all k : lnk k.
Proof.
  apply (@link_all c2r th n (dfull n) (fun _ => I) (fun _ _ => True) (fun _ => True) scan_typed).
  - apply (@both_prim c2r th n Hn (dfull n) (fun _ => I) (@keeps_full n) (keeps_dot_full Hn) (fun _ _ => True)). intros k0 a Ha _. apply dense_mixes. exact Ha.
  - apply (@both_custom c2r th n Hn (dfull n) (fun _ => I) (@keeps_full n) (fun _ => True)).
  - apply dense_ext.
  - intros j nc nk a _ HV. apply (@dense_scan c2r th n j nc nk a HV).
Qed.
Lemma lnk_runs j closed args rs : ok args -> smooth_run j closed (vals args) -> jeval j closed args = Some rs -> plain_run j closed (vals args) = Some (vals rs) /\ ok rs.
Proof. intros Ha HS H. apply (@link_runs c2r th n (dfull n) (fun _ => I) (fun _ _ => True) (fun _ => True) scan_typed j (fun k _ => @lnk_all k) closed args Ha HS); exact H. Qed.
Lemma full_dense (l : list (arg R)) : Forall (dfull n) l -> Forall (@dense_arg R) l.
Proof. apply Forall_impl. intros v. apply dfull_dense. Qed.
Definition tot (k : @opk R prim) : Prop := forall args ys, ok args -> smooth_eq k (vals args) -> plain_of k (vals args) = Some ys -> (existsb (@is_al R) args = true -> dep_of k (flags args) <> None) -> exists rs, step k args = Some rs.
Lemma write_total vs : forall (E : var -> option (arg R)) (F F1 : var -> option (nd R)) xs, write0_many F vs (vals xs) = Some F1 -> exists E1, write0_many E vs xs = Some E1.
Proof.
  induction vs as [|v vs IH]; intros E F F1 [|x xs] H; cbn [write0_many map] in *; try discriminate; eauto.
Qed.
Lemma exec_total es : (forall e, In e es -> tot (kind_of e)) -> forall E F F1 B, lenv' E F -> denv E B -> gexec F (map (fun e => (pinstr_of e, smooth_eq (kind_of e))) es) ->
  exec0 F (map (@pinstr_of R CRing_R prim) es) = Some F1 -> exec0 B (map dinstr es) <> None -> exists E1, exec0 E (map instr_at es) = Some E1.
Proof.
  induction es as [|e es IH]; intros HT E F F1 B HE HB HG HX HD; cbn [map gexec exec0] in *; [eauto|].
  unfold exec0_1 in *. cbn [instr_of pinstr_of dinstr i_in i_out i_step] in *. destruct (@lenv_read n (dfull n) (fun _ => I) E F (ins_of e) HE) as [R1 R2]. rewrite R1 in HG, HX. rewrite (@denv_read _ _ (ins_of e) HB) in HD.
  destruct (read0_many E (map (@plain_atom R) (ins_of e))) as [xs|] eqn:Er; cbn [option_map] in *; [|discriminate].
  destruct HG as [G1 G2]. destruct (plain_of (kind_of e) (vals xs)) as [zs|] eqn:Ep; [|discriminate]. rewrite flags_exist in HD.
  assert (HDk : existsb (@is_al R) xs = true -> dep_of (kind_of e) (flags xs) <> None) by (intros Ex; rewrite Ex in HD; intros En; rewrite En in HD; congruence).
  destruct (HT e (or_introl eq_refl) xs zs (R2 xs eq_refl) G1 Ep HDk) as (ys & Es). rewrite Es.
  destruct (@lnk_all (kind_of e) xs (R2 xs eq_refl) G1) as [_ L]. destruct (L ys Es) as [L3 L4]. rewrite L3 in Ep. injection Ep as <-.
  destruct (write0_many F (outs_of e) (vals ys)) as [F2|] eqn:Wf; [|discriminate]. destruct (@write_total (outs_of e) E F F2 ys Wf) as (E2 & We). rewrite We.
  destruct (@lenv_write n (dfull n) (outs_of e) E F ys E2 HE L4 We) as (F2' & W1 & W2). rewrite W1 in Wf. injection Wf as ->.
  destruct (@denv_write _ _ _ _ _ HB We) as (B2 & V1 & V2).
  assert (EF : (if existsb (@is_al R) xs then dep_of (kind_of e) (flags xs) else Some (map (fun _ => false) (outs_of e))) = Some (flags ys)).
  { destruct (existsb (@is_al R) xs) eqn:Ex; [apply (@dep_all c2r th (kind_of e) xs ys Ex Es)|]. rewrite step_if, plain_exist, Ex in Es. cbn [negb] in Es. destruct (plain_of _ _) as [ps|]; [|discriminate]. cbn in Es. injection Es as <-. rewrite map_map. cbn [is_al]. f_equal. apply const_flags. rewrite <- (write0_len _ _ _ We), map_length. reflexivity. }
  rewrite EF, V1 in HD. apply (IH (fun e' He => HT e' (or_intror He)) E2 F2 F1 B2 W2 V2 G2 HX HD).
Qed.
Lemma run_total j : (forall k, In k (subops j) -> tot k) -> forall closed args ys, ok args -> smooth_run j closed (vals args) -> plain_run j closed (vals args) = Some ys -> dep_run j closed (flags args) <> None -> exists rs, jeval j closed args = Some rs.
Proof.
  intros HT closed args ys Ha HS HP HDR. rewrite jrun_eq. rewrite plain_run_eq in HP. rewrite smooth_run_eq in HS. rewrite dep_run_eq in HDR. unfold runb. unfold run0 in *. unfold init0 in *. cbn [code_of pcode_of dcode c_consts c_ins c_eqns c_outs] in *.
  assert (HC : consts_of j closed = map (@AX R) (if closed then j_cs j else [])) by (unfold consts_of; destruct closed; reflexivity). rewrite HC.
  assert (HC2 : (if closed then map (fun _ : nd R => false) (j_cs j) else []) = flags (map (@AX R) (if closed then j_cs j else []))) by (rewrite map_map; destruct closed; reflexivity). rewrite HC2 in HDR. set (cs := if closed then j_cs j else []) in *.
  assert (H0 : lenv' (fun _ => None) (fun _ => None)) by (intros v; split; [reflexivity|discriminate]).
  destruct (write0_many (fun _ => None) (j_cvs j) cs) as [Fc|] eqn:Wc; [|discriminate]. rewrite <- (avals_AX cs) in Wc. destruct (@write_total _ (fun _ : var => None) _ _ _ Wc) as (Ec & WEc). rewrite WEc.
  destruct (@denv_write _ (fun _ => None) (fun _ => None) _ _ (fun _ => eq_refl) WEc) as (B1 & V1 & D1). rewrite V1 in HDR.
  destruct (@lenv_write n (dfull n) _ _ _ _ _ H0 (@ok_plain n (dfull n) (fun _ => I) cs) WEc) as (Fc' & A1 & A2). rewrite A1 in Wc. injection Wc as ->.
  destruct (write0_many Fc (j_ivs j) (vals args)) as [F0|] eqn:Wi; [|discriminate]. destruct (@write_total _ Ec _ _ _ Wi) as (E0 & WE0). rewrite WE0.
  destruct (@denv_write _ _ _ _ _ D1 WE0) as (B2 & V2 & D2). rewrite V2 in HDR.
  destruct (@lenv_write n (dfull n) _ _ _ _ _ A2 Ha WE0) as (F0' & B1' & B2'). rewrite B1' in Wi. injection Wi as ->.
  destruct (exec0 F0 (map (@pinstr_of R CRing_R prim) (j_es j))) as [F1|] eqn:X; [|discriminate].
  destruct (@exec_total (j_es j)) with (E := E0) (F := F0) (F1 := F1) (B := B2) as (E1 & XE); auto.
  { intros e He. apply HT. unfold subops. apply in_map_iff. exists e. split; auto. }
  { intros En. rewrite En in HDR. congruence. }
  rewrite XE. destruct (@link_exec c2r th n (dfull n) (fun _ => I) (fun _ _ => True) (fun _ => True) scan_typed (j_es j) (fun e _ => @lnk_all (kind_of e)) E0 F0 B2' HS) as [_ C2].
  destruct (C2 E1 XE) as (F1' & D1' & D2'). rewrite D1' in X. injection X as ->. destruct (@lenv_read n (dfull n) (fun _ => I) E1 F1 (j_os j) D2') as [R1 _]. rewrite R1 in HP.
  destruct (read0_many E1 (map (@plain_atom R) (j_os j))) as [rs|]; [eauto|discriminate].
Qed.
Lemma full_type (u v : arg R) : vok n u -> dfull n u -> vok n v -> dfull n v -> is_al v = is_al u -> sh (aval v) = sh (aval u) -> carry_match u v = true.
Proof.
  destruct u as [a|x], v as [b|y]; cbn [is_al]; intros V1 D1 V2 D2 HF HS; try discriminate.
  - destruct V1 as [V1 _], V2 as [V2 _]. destruct (dfull_full V1 D1) as [N1 S1], (dfull_full V2 D2) as [N2 S2]. unfold carry_match. cbn [same_type aval] in *. rewrite S1, S2, HS. destruct V1 as [_ L1], V2 as [_ L2]. rewrite L1, L2, HS, !ixeqb_refl. cbn.
    unfold idx_match. unfold weak in N1, N2. destruct (jidx (ljac a)); [discriminate|]. destruct (jidx (ljac b)); [discriminate|reflexivity].
  - unfold carry_match. cbn in *. rewrite HS, ixeqb_refl. reflexivity.
Qed.
Lemma full_types (l : list (arg R)) : forall m, ok l -> ok m -> flags m = flags l -> map (@sh R) (vals m) = map (@sh R) (vals l) -> Interp.all2 (@carry_match R) l m = true.
Proof.
  induction l as [|a l IH]; intros [|b m] Hl Hm HF HS; try discriminate; [reflexivity|]. apply ok_cons in Hl. apply ok_cons in Hm. destruct Hl as [[D1 V1] Hl], Hm as [[D2 V2] Hm]. cbn [map] in HF, HS. injection HF as F1 F2. injection HS as S1 S2. cbn [Interp.all2]. rewrite (@full_type a b V1 D1 V2 D2 F1 S1). cbn. apply IH; auto.
Qed.
Lemma match_sa (a b c : arg R) : carry_match a b = true -> sa b c -> carry_match a c = true.
Proof.
  destruct a as [u|x], b as [v|y], c as [w|z]; cbn; try discriminate; try tauto.
  - intros H (S1 & (S2 & S3) & S4). unfold sn in *. unfold carry_match in *. cbn [same_type] in *. unfold idx_match in *. rewrite <- S1, <- S2, <- S4, <- S3. exact H.
  - unfold sn. intros H E. unfold carry_match in *. cbn [same_type] in *. rewrite <- E. exact H.
Qed.
Lemma matches_sa (l : list (arg R)) : forall m k, Interp.all2 (@carry_match R) l m = true -> Forall2 sa m k -> Interp.all2 (@carry_match R) l k = true.
Proof. induction l as [|a l IH]; intros [|b m] k H HF; cbn in H; try discriminate; inversion HF as [|? c ? k' Hbc HF']; subst; [reflexivity|]. apply andb_true_iff in H. destruct H as [K1 K2]. cbn. rewrite (@match_sa a b c K1 Hbc). cbn. apply (IH m k' K2 HF'). Qed.
Lemma matches_idx (l : list (arg R)) m : ok l -> ok m -> Interp.all2 (@carry_match R) l m = true -> Forall2 (@InterpScan.same_idx R) l m.
Proof. intros [D1 _] [D2 _] H. apply dense_same_all; [apply full_dense; exact D1|apply full_dense; exact D2|apply match_same; exact H]. Qed.
Lemma tot_all k : tot k.
Proof.
  apply (@opk_all R prim tot); clear k.
  - intros key fs args ys [HD HV] (-> & H1 & H2 & _) HP _. rewrite step_if. destruct (forallb isplain args) eqn:Epl; [rewrite HP; cbn; eauto|].
    apply (@prim_total n c2r th key args Hn HV (full_dense HD) (plain_als _ Epl) H1 H2).
  - intros fs args ys [HD HV] [_ HS] HP _. rewrite step_if. destruct (forallb isplain args); [rewrite HP; cbn; eauto|].
    apply (@custom_total n c2r th fs args Hn HV (full_dense HD)). intros f Hf. apply (HS f Hf).
  - intros name j IH args ys HV HS HP HDk. change (smooth_eq (KPjit name j) (vals args)) with (match name_prim name with Some key => (forall ys, length ys = length (vals args) -> plain_run j true ys = Some (map (fun f => o_fwd f ys) (prim_ops key))) /\ applies key (vals args) /\ diff_at key (vals args) /\ True | None => smooth_run j true (vals args) end) in HS.
    rewrite step_if. destruct (forallb isplain args) eqn:Epl; [rewrite HP; cbn; eauto|]. rewrite pjit_plain in HP. rewrite plain_exist in Epl. apply negb_false_iff in Epl. specialize (HDk Epl).
    change (dep_of (KPjit name j) (flags args)) with (match name_prim name with Some key => Some (carries key (prim_ops key)) | None => dep_run j true (flags args) end) in HDk. destruct (name_prim name) as [key|] eqn:Ek.
    + destruct HS as (_ & H1 & H2 & _). destruct (@name_regs c2r name key Ek) as (rl & E1 & E2). rewrite E1.
      assert (Epl' : forallb isplain args = false) by (rewrite plain_exist, Epl; reflexivity).
      destruct HV as [HD HV]. destruct (@prim_total n c2r th key args Hn HV (full_dense HD) (plain_als _ Epl') H1 H2) as (outs & HX). unfold eval_prim in HX. rewrite E2 in HX. eauto.
    + assert (E1 : nreg name = None) by (unfold name_reg; rewrite Ek; reflexivity). rewrite E1. apply (@run_total j IH true args ys HV HS HP HDk).
  - intros nc nk T rv j IH args ys HV (S0 & S1 & S2 & S3) HP HDk. destruct S0 as [SO ST]. rewrite step_if. destruct (forallb isplain args) eqn:Epl; [rewrite HP; cbn; eauto|]. rewrite plain_exist in Epl. apply negb_false_iff in Epl. specialize (HDk Epl).
    pose proof (@run_total j IH false) as RT. clear IH.
    set (cons := firstn nc args). set (carry := firstn nk (skipn nc args)). set (inp := skipn (nc + nk) args).
    assert (Ecn : firstn nc (vals args) = vals cons) by (unfold cons; apply firstn_map). assert (Ecr : firstn nk (skipn nc (vals args)) = vals carry) by (unfold carry; rewrite skipn_map, firstn_map; reflexivity).
    assert (Ein : skipn (nc + nk) (vals args) = vals inp) by (unfold inp; apply skipn_map).
    rewrite Ecn, Ecr, Ein in *. rewrite scan_plain in HP. destruct (Nat.eqb_spec T 0) as [|HT]; [discriminate|]. rewrite Ecr in HP.
    change ((if existsb (fun b => b) (skipn (nc + nk) (flags args)) then None else
      match dep_run j false (firstn nc (flags args) ++ firstn nk (skipn nc (flags args)) ++ skipn (nc + nk) (flags args)) with None => None | Some r => if beqs (firstn nk r) (firstn nk (skipn nc (flags args))) then Some r else None end) <> None) in HDk.
    rewrite !skipn_map, !firstn_map, flags_exist in HDk. fold cons carry inp in HDk. destruct (existsb (@is_al R) inp) eqn:Ei; [congruence|].
    destruct (dep_run j false (flags cons ++ flags carry ++ flags inp)) as [fr|] eqn:EDR; [|congruence]. destruct (beqs (firstn nk fr) (flags carry)) eqn:EB; [|congruence]. clear HDk. apply beqs_eq in EB.
    assert (OKn : ok cons) by (unfold cons; apply ok_firstn; exact HV). assert (OKr : ok carry) by (unfold carry; apply ok_firstn, ok_skipn; exact HV).
    set (rowsat := fun t => map (fun x : arg R => AX (row (aval x) t)) inp).
    assert (OKi : forall t, ok (rowsat t)) by (intros t; unfold rowsat; rewrite <- map_map with (f := fun x => row (aval x) t) (g := @AX R); apply ok_plain; intros x; exact I).
    assert (FLi : forall t, flags (rowsat t) = flags inp) by (intros t; unfold rowsat; rewrite map_map, (plain_flags _ Ei); reflexivity).
    assert (VLi : forall t, vals (rowsat t) = map (fun x => row x t) (vals inp)) by (intros t; unfold rowsat; rewrite !map_map; reflexivity).
    (* one iteration *)
    assert (ST1 : forall c t pr, ok c -> Interp.all2 (@carry_match R) carry c = true -> map (@sh R) (vals c) = map (@sh R) (vals carry) -> smooth_run j false (vals cons ++ vals c ++ map (fun x => row x t) (vals inp)) ->
      plain_run j false (vals cons ++ vals c ++ map (fun x => row x t) (vals inp)) = Some pr ->
      exists r, jeval j false (cons ++ c ++ rowsat t) = Some r /\ vals r = pr /\ ok (firstn nk r) /\ Interp.all2 (@carry_match R) carry (firstn nk r) = true /\ map (@sh R) (vals (firstn nk r)) = map (@sh R) (vals carry)).
    { intros c t pr Hc HM HS Hsm Hpl. set (al := cons ++ c ++ rowsat t). assert (Hal : ok al) by (unfold al; apply ok_app; split; [exact OKn|]; apply ok_app; split; [exact Hc|apply OKi]).
      assert (Eal : vals al = vals cons ++ vals c ++ map (fun x => row x t) (vals inp)) by (unfold al; rewrite !map_app, VLi; reflexivity).
      assert (Fal : flags al = flags cons ++ flags carry ++ flags inp) by (unfold al; rewrite !map_app, FLi, (same_flags _ _ (match_same _ _ HM)); reflexivity).
      rewrite <- Eal in Hsm, Hpl. destruct (RT al pr Hal Hsm Hpl) as (r & Er); [rewrite Fal, EDR; discriminate|]. exists r. split; [exact Er|]. destruct (@lnk_runs j false al r Hal Hsm Er) as [L1 L2]. split; [congruence|].
      assert (Hr : ok (firstn nk r)) by (apply ok_firstn; exact L2). split; [exact Hr|].
      assert (HSr : map (@sh R) (vals (firstn nk r)) = map (@sh R) (vals carry)). { rewrite <- firstn_map. rewrite Eal in L1. apply (ST (vals c) t (vals r) HS L1). }
      split; [|exact HSr]. apply full_types; auto. pose proof (@dep_exact c2r th j false al r Er) as HDX. rewrite Fal, EDR in HDX. injection HDX as HDX. rewrite <- firstn_map, <- HDX. exact EB. }
    assert (MC : Interp.all2 (@carry_match R) carry carry = true) by (apply full_types; auto).
    assert (ESI : forall c, ok c -> Interp.all2 (@carry_match R) carry c = true -> map2 (@set_idx R) c carry = c) by (intros c Hc HM; apply set_same_all; apply matches_idx; auto).
    destruct (loop (piter j nc nk (vals args)) (order T rv) (vals carry)) as [[pc pys]|] eqn:EL; [|discriminate].
    unfold eval_scan. destruct (Nat.eqb_spec T 0) as [|_]; [congruence|]. cbv zeta. fold cons carry inp. change (forallb (fun v : arg R => negb (is_al v)) inp) with (forallb isplain inp). rewrite plain_exist, Ei. cbn [negb].
    (* the check on the first carry *)
    assert (F0 : exists r0, jeval j false (cons ++ carry ++ rowsat 0%nat) = Some r0 /\ Interp.all2 (@carry_match R) carry (firstn nk r0) = true).
    { destruct (order T rv) as [|t1 ts] eqn:Eo; [exfalso; apply (f_equal (@length _)) in Eo; unfold order in Eo; destruct rv; rewrite ?rev_length, seq_length in Eo; cbn in Eo; lia|]. cbn [gloop loop] in S3, EL. unfold piter at 1 in EL. rewrite Ecn, Ein in EL.
      destruct (plain_run j false (vals cons ++ vals carry ++ map (fun x => row x t1) (vals inp))) as [pr|] eqn:Epr; [|discriminate]. destruct (ST1 carry t1 pr OKr MC eq_refl (proj1 S3) Epr) as (r1 & E1 & _ & _ & M1 & _).
      assert (HL : orel (Forall2 sa) (jeval j false (cons ++ carry ++ rowsat t1)) (jeval j false (cons ++ carry ++ rowsat 0%nat))).
      { apply jrun_layout; [apply name_slr|apply prog_sshape; exact SO|]. apply Forall2_app; [apply R2_refl; apply sa_refl|]. apply Forall2_app; [apply R2_refl; apply sa_refl|]. apply (R2_map (P := sa) _ _ _ (@R2_refl _ sa _ (fun x => sa_refl x))). intros u v Huv. cbn. unfold sn, row. cbn. rewrite (sa_aval _ _ Huv). reflexivity. }
      rewrite E1 in HL. destruct (jeval j false (cons ++ carry ++ rowsat 0%nat)) as [r0|]; [|destruct HL]. exists r0. split; [reflexivity|]. cbn in HL. refine (@matches_sa carry _ _ M1 _). clear -HL. revert nk. induction HL as [|x y l m Hx HL IH]; intros [|nk]; cbn; constructor; auto. }
    destruct F0 as (r0 & E0 & M0). rewrite (ESI carry OKr MC). unfold rowsat in E0 at 1. rewrite E0, M0. cbn [negb].
    match goal with |- exists rs, match loop ?st _ _ with _ => _ end = _ => set (stp := st) end.
    assert (HLt : forall ts c pc pys, ok c -> Interp.all2 (@carry_match R) carry c = true -> map (@sh R) (vals c) = map (@sh R) (vals carry) ->
      gloop (piter j nc nk (vals args)) (fun c t => smooth_run j false (vals cons ++ c ++ map (fun x => row x t) (vals inp))) ts (vals c) -> loop (piter j nc nk (vals args)) ts (vals c) = Some (pc, pys) -> exists cy, loop stp ts c = Some cy).
    { induction ts as [|t ts IHt]; intros c pc0 pys0 Hc HM HS HG HL; cbn [gloop loop] in *; [eauto|]. destruct HG as [G1 G2]. unfold piter in HL at 1. unfold piter in G2 at 1. rewrite Ecn, Ein in HL, G2.
      destruct (plain_run j false (vals cons ++ vals c ++ map (fun x => row x t) (vals inp))) as [pr|] eqn:Epr; [|discriminate]. destruct (ST1 c t pr Hc HM HS G1 Epr) as (r & E1 & E2 & O1 & M1 & H1).
      unfold stp at 1. cbv beta. rewrite (ESI c Hc HM). fold (rowsat t). rewrite E1. rewrite (match_same _ _ M1). rewrite <- E2, firstn_map in HL, G2. destruct (loop (piter j nc nk (vals args)) ts (vals (firstn nk r))) as [[c2 ys2]|] eqn:EL2; [|discriminate].
      destruct (IHt (firstn nk r) c2 ys2 O1 M1 H1 G2 EL2) as ([c3 ys3] & E3). rewrite E3. eauto. }
    destruct (HLt (order T rv) carry pc pys OKr MC eq_refl S3 EL) as ([c3 ys3] & E3). rewrite E3. eauto.
Qed.
Theorem program_total j args ys : ok args -> smooth_run j true (vals args) -> plain_run j true (vals args) = Some ys -> dep_run j true (flags args) <> None -> exists rs, jeval j true args = Some rs.
Proof. intros HV HS HP HD. apply (@run_total j (fun k _ => @tot_all k) true args ys HV HS HP HD). Qed.
End Prog.
(* both conditions imply the condition of C01 *)
Lemma gexec_mono {V} (es : list (instr V * ((list V -> Prop) * (list V -> Prop)))) : (forall e g g', In (e, (g, g')) es -> forall xs, g xs -> g' xs) ->
  forall E, gexec E (map (fun t => (fst t, fst (snd t))) es) -> gexec E (map (fun t => (fst t, snd (snd t))) es).
Proof.
  induction es as [|[e [g g']] es IH]; intros HI E H; cbn [map gexec fst snd] in *; [exact I|]. destruct (read0_many E (i_in e)) as [xs|]; [|exact I]. destruct H as [H1 H2]. split; [apply (HI e g g' (or_introl eq_refl)); exact H1|].
  destruct (i_step e xs) as [ys|]; [|exact I]. destruct (write0_many E (i_out e) ys) as [E1|]; [|exact I]. apply IH; auto. intros e0 g0 g0' H0. apply (HI e0 g0 g0'). right. exact H0.
Qed.
Lemma gloop_mono {V} (step : list V -> nat -> option (list V * list V)) (g g' : list V -> nat -> Prop) : (forall c t, g c t -> g' c t) -> forall ts c, gloop step g ts c -> gloop step g' ts c.
Proof. intros H. induction ts as [|t ts IH]; intros c HG; cbn [gloop] in *; [exact I|]. destruct HG as [G1 G2]. split; [auto|]. destruct (step c t) as [[c' y]|]; [auto|exact I]. Qed.
Section Mono.
Context (cond cond' : prim -> list (nd R) -> Prop) (condc condc' : list (nd R) -> Prop) (sc sc' : @jaxpr R prim -> nat -> nat -> list (nd R) -> Prop).
Context (H1 : forall k xs, cond k xs -> cond' k xs) (H2 : forall xs, condc xs -> condc' xs) (H3 : forall j nc nk xs, sc j nc nk xs -> sc' j nc nk xs).
Lemma smooth_run_mono0 j : (forall k, In k (subops j) -> forall xs, smooth_eqP cond condc sc k xs -> smooth_eqP cond' condc' sc' k xs) -> forall closed xs, smooth_runP cond condc sc j closed xs -> smooth_runP cond' condc' sc' j closed xs.
Proof.
  intros HK closed xs. rewrite !smooth_run_eq. destruct (init0 _ _ _) as [E|]; [|auto]. intros HG.
  set (L := map (fun e => (@pinstr_of R CRing_R prim e, (smooth_eqP cond condc sc (kind_of e), smooth_eqP cond' condc' sc' (kind_of e)))) (j_es j)).
  assert (E1 : map (fun e => (@pinstr_of R CRing_R prim e, smooth_eqP cond condc sc (kind_of e))) (j_es j) = map (fun t => (fst t, fst (snd t))) L) by (unfold L; rewrite map_map; reflexivity).
  assert (E2 : map (fun e => (@pinstr_of R CRing_R prim e, smooth_eqP cond' condc' sc' (kind_of e))) (j_es j) = map (fun t => (fst t, snd (snd t))) L) by (unfold L; rewrite map_map; reflexivity).
  rewrite E1 in HG. rewrite E2. apply gexec_mono; [|exact HG]. intros e g g' Hin. unfold L in Hin. apply in_map_iff in Hin. destruct Hin as (e0 & Ee & Hin). injection Ee as _ <- <-. apply HK. unfold subops. apply in_map_iff. exists e0. auto.
Qed.
Lemma smooth_eq_mono k : forall xs, smooth_eqP cond condc sc k xs -> smooth_eqP cond' condc' sc' k xs.
Proof.
  apply (@opk_all R prim (fun k => forall xs, smooth_eqP cond condc sc k xs -> smooth_eqP cond' condc' sc' k xs)); clear k.
  - intros key fs xs (A & B & C & D). repeat split; auto.
  - intros fs xs (A & B). split; auto.
  - intros name j IH xs. change (match name_prim name with Some key => (forall ys, length ys = length xs -> plain_run j true ys = Some (map (fun f => o_fwd f ys) (prim_ops key))) /\ applies key xs /\ diff_at key xs /\ cond key xs | None => smooth_runP cond condc sc j true xs end ->
      match name_prim name with Some key => (forall ys, length ys = length xs -> plain_run j true ys = Some (map (fun f => o_fwd f ys) (prim_ops key))) /\ applies key xs /\ diff_at key xs /\ cond' key xs | None => smooth_runP cond' condc' sc' j true xs end).
    destruct (name_prim name) as [key|]; [|apply (smooth_run_mono0 j IH)]. intros (A & B & C & D). repeat split; auto.
  - intros nc nk T rv j IH xs (A & B & C & D). split; [auto|]. split; [exact B|]. split; [exact C|]. revert D. apply gloop_mono. intros c t. apply (smooth_run_mono0 j IH).
Qed.
Theorem smooth_run_mono j closed xs : smooth_runP cond condc sc j closed xs -> smooth_runP cond' condc' sc' j closed xs.
Proof. apply smooth_run_mono0. intros k _. apply smooth_eq_mono. Qed.
End Mono.
Lemma noscan_smooth j xs : smooth_noscan j true xs -> smooth_run j true xs.
Proof. apply smooth_run_mono; auto. Qed.
Lemma typed_smooth j xs : typed_run j true xs -> smooth_run j true xs.
Proof. apply smooth_run_mono; auto. Qed.
Lemma noscan_typed j xs : smooth_noscan j true xs -> typed_run j true xs.
Proof. apply smooth_run_mono; auto. intros j0 nc nk ys []. Qed.
(* without scans the data flow is always defined *)
Section NoScan.
Notation smooth_eq := (smooth_eqP (fun _ _ => True) (fun _ => True) (fun _ _ _ _ => False)). Notation smooth_run := (smooth_runP (fun _ _ => True) (fun _ => True) (fun _ _ _ _ => False)).
Definition benv (F : @env0 (nd R)) (B : @env0 bool) : Prop := forall v, F v = None <-> B v = None.
Lemma benv_read F B l xs : benv F B -> read0_many F l = Some xs -> exists fl, read0_many B (map dlit l) = Some fl /\ length fl = length xs.
Proof.
  intros HB. revert xs. induction l as [|a l IH]; intros xs H; cbn [read0_many map] in *; [injection H as <-; exists []; auto|]. destruct (read0 F a) as [x|] eqn:Ea; [|discriminate]. destruct (read0_many F l) as [ys|]; [|discriminate]. injection H as <-.
  destruct (IH ys eq_refl) as (fl & E1 & E2). rewrite E1. assert (Eb : exists b, read0 B (dlit a) = Some b). { destruct a as [v|y]; cbn in *; [|eauto]. destruct (B v) as [b|] eqn:Eb; [eauto|]. apply HB in Eb. congruence. } destruct Eb as (b & ->). exists (b :: fl). cbn. auto.
Qed.
Lemma benv_write vs : forall F B xs fl F1, benv F B -> length fl = length xs -> write0_many F vs xs = Some F1 -> exists B1, write0_many B vs fl = Some B1 /\ benv F1 B1.
Proof.
  induction vs as [|v vs IH]; intros F B [|x xs] [|b fl] F1 HB HL H; cbn in *; try discriminate; [injection H as <-; eauto|]. apply (IH (vset F v (Some x)) (vset B v (Some b)) xs fl F1); [|lia|exact H].
  intros w. unfold vset. destruct (Nat.eqb w v); [split; discriminate|apply HB].
Qed.
Definition dk (k : @opk R prim) : Prop := forall xs ys fl, length fl = length xs -> smooth_eq k xs -> plain_of k xs = Some ys -> exists r, dep_of k fl = Some r /\ length r = length ys.
Lemma dk_run j : (forall k, In k (subops j) -> dk k) -> forall closed xs ys fl, length fl = length xs -> smooth_run j closed xs -> plain_run j closed xs = Some ys -> exists r, dep_run j closed fl = Some r /\ length r = length ys.
Proof.
  intros HK closed xs ys fl HL HS HP. rewrite dep_run_eq. rewrite plain_run_eq in HP. rewrite smooth_run_eq in HS. unfold run0 in *. unfold init0 in *. cbn [pcode_of dcode c_consts c_ins c_eqns c_outs] in *.
  destruct (write0_many (fun _ => None) (j_cvs j) (if closed then j_cs j else [])) as [Fc|] eqn:Wc; [|discriminate].
  assert (HLc : length (if closed then map (fun _ : nd R => false) (j_cs j) else []) = length (if closed then j_cs j else [])) by (destruct closed; [apply map_length|reflexivity]).
  destruct (@benv_write _ _ (fun _ => None) _ _ _ (fun v => conj (fun _ => eq_refl) (fun _ => eq_refl)) HLc Wc) as (Bc & V1 & D1). rewrite V1.
  destruct (write0_many Fc (j_ivs j) xs) as [F0|] eqn:Wi; [|discriminate]. destruct (@benv_write _ _ _ _ fl _ D1 HL Wi) as (B0 & V2 & D2). rewrite V2.
  destruct (exec0 F0 _) as [F1|] eqn:X; [|discriminate].
  assert (HX : exists B1, exec0 B0 (map dinstr (j_es j)) = Some B1 /\ benv F1 B1).
  { clear -HK D2 X HS. unfold subops in HK. revert F0 B0 D2 X HS. induction (j_es j) as [|e es IH]; intros F0 B0 D2 X HS; cbn [map exec0 gexec] in *; [injection X as <-; eauto|].
    unfold exec0_1 in *. cbn [pinstr_of dinstr i_in i_out i_step] in *. destruct (read0_many F0 (ins_of e)) as [xs|] eqn:Er; [|discriminate]. destruct (@benv_read _ _ _ _ D2 Er) as (fl & R1 & R2). rewrite R1. destruct HS as [G1 G2].
    destruct (plain_of (kind_of e) xs) as [zs|] eqn:Ep; [|discriminate]. destruct (write0_many F0 (outs_of e) zs) as [F2|] eqn:W; [|discriminate].
    assert (HR : exists r, (if existsb (fun b => b) fl then dep_of (kind_of e) fl else Some (map (fun _ => false) (outs_of e))) = Some r /\ length r = length zs).
    { destruct (existsb (fun b => b) fl); [apply (HK (kind_of e) ltac:(left; destruct e; reflexivity) xs zs fl R2 G1 Ep)|]. eexists. split; [reflexivity|]. rewrite map_length. symmetry. apply (write0_len _ _ _ W). }
    destruct HR as (r & -> & HLr). destruct (@benv_write _ _ _ _ r _ D2 HLr W) as (B2 & V3 & D3). rewrite V3. apply (IH (fun k Hk => HK k (or_intror Hk)) F2 B2 D3 X G2). }
  destruct HX as (B1 & -> & D3). destruct (@benv_read _ _ _ _ D3 HP) as (r & -> & E). eauto.
Qed.
Lemma carries_len k : length (carries k (prim_ops k)) = length (prim_ops k). Proof. destruct k; reflexivity. Qed.
Lemma dk_all k : dk k.
Proof.
  apply (@opk_all R prim dk); clear k.
  - intros key fs xs ys fl _ (-> & _) H. cbn in H. injection H as <-. eexists. split; [reflexivity|]. rewrite map_length. apply carries_len.
  - intros fs xs ys fl _ _ H. cbn in H. injection H as <-. eexists. split; [reflexivity|]. rewrite !map_length. reflexivity.
  - intros name j IH xs ys fl HL HS HP. rewrite pjit_plain in HP. change (smooth_eq (KPjit name j) xs) with (match name_prim name with Some key => (forall ys, length ys = length xs -> plain_run j true ys = Some (map (fun f => o_fwd f ys) (prim_ops key))) /\ applies key xs /\ diff_at key xs /\ True | None => smooth_run j true xs end) in HS.
    change (exists r, match name_prim name with Some key => Some (carries key (prim_ops key)) | None => dep_run j true fl end = Some r /\ length r = length ys). destruct (name_prim name) as [key|].
    + destruct HS as (H0 & _). rewrite H0 in HP by reflexivity. injection HP as <-. eexists. split; [reflexivity|]. rewrite map_length. apply carries_len.
    + apply (@dk_run j IH true xs ys fl HL HS HP).
  - intros nc nk T rv j IH xs ys fl _ (S0 & _). destruct S0.
Qed.
Lemma noscan_dep j xs ys : smooth_noscan j true xs -> plain_run j true xs = Some ys -> dep_run j true (map (fun _ => true) xs) <> None.
Proof. intros HS HP. destruct (@dk_run j (fun k _ => @dk_all k) true xs ys (map (fun _ => true) xs) (map_length _ _) HS HP) as (r & -> & _). discriminate. Qed.
End NoScan.
