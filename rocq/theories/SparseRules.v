(* SparseRules.v : the registered rules return a result on sparse Jacobians (see SparseTotal.v). *)
From Verif Require Export SlogCalc DotCalc SparseTotal.
Set Implicit Arguments.

Section S1.
Context {A : Type} {RA : CRing A}.
Notation aval := (@aval A).
Open Scope cr_scope.
(* specification: a value of the program that a rule can work with *)
Definition goodv (n : nat) (v : arg A) : Prop := match v with AL a => good n a | AX _ => True end.
Lemma good_vok n v : goodv n v -> vok n v.
Proof. destruct v as [a|x]; cbn; [|auto]. intros (W & F & N). split; [exact W|]. destruct W as [W _]. apply (full_row1 W F N). Qed.
Lemma good_als n args : (forall v, In v args -> goodv n v) -> forall a, In a (als args) -> good n a.
Proof. intros H a Ha. apply In_als in Ha. exact (H _ Ha). Qed.
(* the rule returns the function's value with a usable Jacobian *)
Definition returns (n : nat) (f : op A) (args : list (arg A)) (o : option (arg A)) : Prop := exists a, o = Some (AL a) /\ good n a /\ lx a = o_fwd f (map aval args).
Lemma wrap_good n (Q : rule A) c2r th args axs eaxs : als args <> [] -> r_float Q = true ->
  sequence (map (fun a => canon_axes (ndim (lx a)) (r_axes Q)) (als args)) = Some axs ->
  sequence (map (fun x => canon_axes (ndim x) (r_axes Q)) (exs args)) = Some eaxs ->
  let f := f_op (r_fn Q) in let mg := merge_of (mask_of args) in let fm := merged f mg (length (als args)) (exs args) in
  ne (sh (o_fwd f (map aval args))) ->
  stepped fm (als args) (jvp_fn (r_fn Q) mg (exs args) th (r_fl Q) (r_axes Q) (als args)) ->
  (forall t, jvp_fn (r_fn Q) mg (exs args) th (r_fl Q) (r_axes Q) (als args) = Some t -> step_ok n fm (als args) t) ->
  (exists h, jhj_trace f c2r (r_fl Q) (r_custom Q) (exs args) axs eaxs mg th (als args) = Some h /\ bto (sh h) (sh (o_fwd f (map aval args)))) ->
  returns n f args (wrap_fl Q c2r th args).
Proof.
  intros Hne Hf Ea Ee f mg fm NE (y & g & l & E1 & Ey & El & Hfull) HS (h & E2 & Hb). unfold wrap_fl. rewrite Ea, Ee. cbn [bind]. fold mg. 
  assert (HX : forall (X : Type) (u v : X), match als args with [] => u | _ :: _ => v end = v) by (intros; destruct (als args); congruence). rewrite HX. rewrite E1. cbn [bind]. fold f. rewrite E2. cbn [bind].
  destruct (HS _ E1) as (Sy & Sg & Sl & _). unfold fm, mg, f in *. rewrite !merged_fwd in *. rewrite Ey in El.
  destruct (@bin_bto A RA l h _ Sl Hb) as (t & Et & St & _). rewrite Et. cbn [bind]. rewrite Hf. eexists. split; [reflexivity|]. split; [|exact Ey].
  split; [split; cbn [lx ljac llap]; rewrite Ey; auto|]. cbn [lx ljac]. split; [exact Hfull|]. rewrite Ey. exact NE.
Qed.
Lemma rule_good_any n (Q : rule A) c2r th args axs eaxs : (0 < n)%nat -> als args <> [] -> r_float Q = true -> (forall v, In v args -> goodv n v) ->
  sequence (map (fun a => canon_axes (ndim (lx a)) (r_axes Q)) (als args)) = Some axs ->
  sequence (map (fun x => canon_axes (ndim x) (r_axes Q)) (exs args)) = Some eaxs ->
  let f := f_op (r_fn Q) in let F := r_fn Q in let fl := r_fl Q in let ax := r_axes Q in let mg := merge_of (mask_of args) in let fm := merged f mg (length (als args)) (exs args) in
  let so := sh (o_fwd f (map aval args)) in ne so ->
  (forall a, (a < length (als args))%nat -> struct_at fm (f_kwaxes F) fl ax (xs_of (als args)) a) -> iop_ok F fl (map aval args) ->
  (forall x, In x (xs_of (als args)) -> axes_of (f_kwaxes F) ax x <> [] -> has SUMMATION fl = false -> bto (permute (keep_pos (ndim x) (norm_axes (ndim x) (axes_of (f_kwaxes F) ax x))) (sh x)) so) ->
  (axes_nil ax = true -> bshapes (map (@sh A) (xs_of (als args))) <> None) ->
  (forall g filled, has INDEXING fl = true -> f_iop F = Some (g, true, filled) -> forall p, inb p (i_shape g) -> exists a, (a < length (als args))%nat /\ fst (i_src g p) = posof mg (length (als args)) (length (exs args)) a) ->
  (any_weak (als args) = false \/ all_weak (als args) && (has INDEXING fl || axes_nil ax) = true \/ (length (als args) <= 2)%nat /\ all_weak (als args) = false \/ length (als args) = 1%nat) ->
  (exists h, jhj_trace f c2r (r_fl Q) (r_custom Q) (exs args) axs eaxs mg th (als args) = Some h /\ bto (sh h) so) ->
  returns n f args (wrap_fl Q c2r th args).
Proof.
  intros Hn Hne Hf HG Ea Ee f F fl ax mg fm so NE Hst Hio Hred Hbs Hsrc HM HH.
  assert (EM : mg (nd A) (xs_of (als args)) (exs args) = map aval args) by (unfold mg; apply merge_avals).
  assert (EF : o_fwd (merged (f_op F) mg (length (als args)) (exs args)) (xs_of (als args)) = o_fwd f (map aval args)) by (unfold mg; apply merged_fwd).
  apply (@wrap_good n Q c2r th args axs eaxs); auto.
  - refine (@jvp_good A RA n F mg (exs args) th fl ax (als args) Hn Hne (merge_args_ok args) (@good_als n args HG) _ Hst _ _ Hbs _ HM).
    + rewrite EF. exact NE.
    + rewrite EM. exact Hio.
    + intros x Hx H1 H2. rewrite EF. apply Hred; auto.
    + intros g filled _ H1 H2. apply (Hsrc g filled H1 H2).
  - intros t Ht. refine (proj1 (@jvp_fn_sound A RA n F mg (exs args) th fl ax (als args) t Hn Hne (merge_args_ok args) (@vok_als A RA n args (fun v Hv => @good_vok n v (HG v Hv))) Hst _ _ Ht)).
    + rewrite EM. exact Hio.
    + destruct HM as [H|[H|[H|H]]]; auto.
Qed.
Lemma rule_good n (Q : rule A) c2r th args axs eaxs : (0 < n)%nat -> als args <> [] -> r_float Q = true -> (forall v, In v args -> goodv n v) ->
  sequence (map (fun a => canon_axes (ndim (lx a)) (r_axes Q)) (als args)) = Some axs ->
  sequence (map (fun x => canon_axes (ndim x) (r_axes Q)) (exs args)) = Some eaxs ->
  let f := f_op (r_fn Q) in let F := r_fn Q in let fl := r_fl Q in let ax := r_axes Q in let mg := merge_of (mask_of args) in let fm := merged f mg (length (als args)) (exs args) in
  let so := sh (o_fwd f (map aval args)) in ne so ->
  (forall a, (a < length (als args))%nat -> struct_at fm (f_kwaxes F) fl ax (xs_of (als args)) a) -> iop_ok F fl (map aval args) ->
  (forall x, In x (xs_of (als args)) -> axes_of (f_kwaxes F) ax x <> [] -> has SUMMATION fl = false -> bto (permute (keep_pos (ndim x) (norm_axes (ndim x) (axes_of (f_kwaxes F) ax x))) (sh x)) so) ->
  (axes_nil ax = true -> bshapes (map (@sh A) (xs_of (als args))) <> None) ->
  (forall g filled, has INDEXING fl = true -> f_iop F = Some (g, true, filled) -> forall p, inb p (i_shape g) -> exists a, (a < length (als args))%nat /\ fst (i_src g p) = posof mg (length (als args)) (length (exs args)) a) ->
  ((length (als args) <= 2)%nat /\ (has INDEXING fl || axes_nil ax = true) \/ length (als args) = 1%nat) ->
  (exists h, jhj_trace f c2r (r_fl Q) (r_custom Q) (exs args) axs eaxs mg th (als args) = Some h /\ bto (sh h) so) ->
  returns n f args (wrap_fl Q c2r th args).
Proof.
  intros Hn Hne Hf HG Ea Ee f F fl ax mg fm so NE Hst Hio Hred Hbs Hsrc Hmix HH.
  apply (@rule_good_any n Q c2r th args axs eaxs); auto.
  destruct Hmix as [[H1 H2]|H]; [|auto]. fold ax fl. rewrite H2, andb_true_r. destruct (all_weak (als args)); auto.
Qed.
(* ---- elementwise ---- *)
Lemma sub_bshapes args : bshapes (map (@sh A) (map aval args)) <> None -> bshapes (map (@sh A) (xs_of (als args))) <> None.
Proof.
  intros H. destruct (bshapes (map (@sh A) (map aval args))) as [s|] eqn:E; [|congruence]. apply bshapes_spec in E. destruct E as [E _].
  destruct (@bshapes_ex (map (@sh A) (xs_of (als args))) s) as (r & Er); [|rewrite Er; discriminate].
  intros t Ht. apply E. unfold xs_of in Ht. rewrite map_map in Ht. apply in_map_iff in Ht. destruct Ht as (a & <- & Ha). apply In_als in Ha. rewrite map_map. apply in_map_iff. exists (AL a). auto.
Qed.
Lemma ew_any n phi d h fl cu c2r th args : (0 < n)%nat -> als args <> [] -> (forall v, In v args -> goodv n v) -> bshapes (map (@sh A) (map aval args)) <> None -> (length (als args) <= 2)%nat \/ any_weak (als args) = false \/ all_weak (als args) = true ->
  let f := ew_op phi d h in ne (sh (o_fwd f (map aval args))) ->
  (exists hh, jhj_trace f c2r fl cu (exs args) (map (fun _ => []) (als args)) (map (fun _ => []) (exs args)) (merge_of (mask_of args)) th (als args) = Some hh /\ bto (sh hh) (sh (o_fwd f (map aval args)))) ->
  returns n f args (wrap_fl (ew_rule phi d h fl cu) c2r th args).
Proof.
  intros Hn Hne HG HB HL f NE HH. refine (@rule_good_any n (ew_rule phi d h fl cu) c2r th args _ _ Hn Hne eq_refl HG (canon_nil _ _) (canon_nil _ _) NE _ _ _ _ _ _ HH); cbn [ew_rule r_fn r_fl r_axes f_kwaxes f_op f_iop].
  - intros a Ha. unfold struct_at. cbn [axes_of]. apply (@merged_ew_at A RA phi d h args a HB Ha).
  - exact I.
  - intros x _ X. cbn in X. congruence.
  - intros _. apply sub_bshapes. exact HB.
  - intros g filled _ X. discriminate X.
  - cbn [axes_nil forallb]. rewrite ?orb_true_r, andb_true_r. destruct HL as [HL|[HL|HL]]; auto. destruct (all_weak (als args)); auto.
Qed.
Lemma ew_good n phi d h fl cu c2r th args : (0 < n)%nat -> als args <> [] -> (forall v, In v args -> goodv n v) -> bshapes (map (@sh A) (map aval args)) <> None -> (length (als args) <= 2)%nat ->
  let f := ew_op phi d h in ne (sh (o_fwd f (map aval args))) ->
  (exists hh, jhj_trace f c2r fl cu (exs args) (map (fun _ => []) (als args)) (map (fun _ => []) (exs args)) (merge_of (mask_of args)) th (als args) = Some hh /\ bto (sh hh) (sh (o_fwd f (map aval args)))) ->
  returns n f args (wrap_fl (ew_rule phi d h fl cu) c2r th args).
Proof. intros Hn Hne HG HB HL f NE HH. apply ew_any; auto. Qed.
Lemma ew_linear_any n phi d h fl cu c2r th args : (0 < n)%nat -> als args <> [] -> (forall v, In v args -> goodv n v) -> bshapes (map (@sh A) (map aval args)) <> None -> (length (als args) <= 2)%nat \/ any_weak (als args) = false \/ all_weak (als args) = true ->
  let f := ew_op phi d h in ne (sh (o_fwd f (map aval args))) -> has LINEAR fl = true -> returns n f args (wrap_fl (ew_rule phi d h fl cu) c2r th args).
Proof. intros Hn Hne HG HB HL f NE HF. apply ew_any; auto. exists nd0. split; [unfold jhj_trace; rewrite HF; reflexivity|apply bto_nil]. Qed.
Lemma ew_linear_good n phi d h fl cu c2r th args : (0 < n)%nat -> als args <> [] -> (forall v, In v args -> goodv n v) -> bshapes (map (@sh A) (map aval args)) <> None -> (length (als args) <= 2)%nat ->
  let f := ew_op phi d h in ne (sh (o_fwd f (map aval args))) -> has LINEAR fl = true -> returns n f args (wrap_fl (ew_rule phi d h fl cu) c2r th args).
Proof. intros Hn Hne HG HB HL f NE HH. apply ew_linear_any; auto. Qed.
(* the plan of elementwise functions, in terms of shapes *)
Definition shapes_ok (args : list (arg A)) : Prop :=
  forall s t, bshapes (map (@sh A) (xs_of (als args))) = Some s -> bshapes (map (@sh A) (map aval args)) = Some t -> same_axes s t.
Lemma shape_in (args : list (arg A)) s : In s (map (@sh A) (map aval args)) <-> In s (map (@sh A) (xs_of (als args))) \/ In s (map (@sh A) (exs args)).
Proof.
  induction args as [|[a|x] l IH]; cbn [map als exs flat_map app In xs_of Wrap.aval] in *; [tauto| |]; unfold xs_of in *; cbn [map In]; fold (als l) (exs l); rewrite IH; tauto.
Qed.
Lemma comb_nil {X} (f : X -> shape) (l : list X) : map (fun p : shape * list nat => reduced_shape (fst p) (snd p)) (combine (map f l) (map (fun _ => []) l)) = map f l.
Proof. induction l as [|x l IH]; [reflexivity|]. cbn [map combine fst snd]. rewrite reduced_nil, IH. reflexivity. Qed.
Lemma ew_plan n args : (forall v, In v args -> goodv n v) -> shapes_ok args -> plan_ok (als args) (map (fun _ => []) (als args)) (exs args) (map (fun _ => []) (exs args)).
Proof.
  intros HG HS brda brd E1 E2. unfold brdcast_shape in *.
  assert (HW : forall a, In a (als args) -> awf n a) by (intros a Ha; apply (@good_als n args HG a Ha)).
  assert (I1 : forall s, In s (map (fun l : shape * list nat => reduced_shape (fst l) (snd l)) (mleaves (als args) (map (fun _ => []) (als args)))) <-> In s (map (@sh A) (xs_of (als args)))).
  { intros s. split.
    - intros H. apply in_map_iff in H. destruct H as (l & <- & Hl). destruct (@mleaves_inv _ _ n (als args) _ l (map_length _ _) HW Hl) as (a & k & Ha & ->). cbn [fst snd]. rewrite reduced_jac.
      rewrite nth_map_in with (dx := la0) by exact Ha. rewrite reduced_nil. unfold xs_of. rewrite map_map. apply in_map_iff. exists (nth a (als args) la0). split; [reflexivity|apply nth_In; exact Ha].
    - intros H. unfold xs_of in H. rewrite map_map in H. apply in_map_iff in H. destruct H as (a0 & <- & Ha). apply (In_nth _ _ la0) in Ha. destruct Ha as (a & Ha & <-).
      destruct (@mleaves_nth _ _ n (als args) (map (fun _ => []) (als args)) a (map_length _ _) HW Ha) as (k & Hk). apply in_map_iff. eexists. split; [|exact Hk]. cbn [fst snd]. rewrite reduced_jac. rewrite nth_map_in with (dx := la0) by exact Ha. apply reduced_nil. }
  assert (I2 : forall s, In s (map (fun l : shape * list nat => reduced_shape (fst l) (snd l)) (leaves_of (als args) (map (fun _ => []) (als args)) (exs args) (map (fun _ => []) (exs args)))) <-> In s (map (@sh A) (map aval args))).
  { intros s. rewrite shape_in. unfold leaves_of. rewrite map_app, !comb_nil, in_app_iff. unfold xs_of. rewrite map_map. reflexivity. }
  assert (X1 : exists s, bshapes (map (@sh A) (xs_of (als args))) = Some s). { apply bshapes_spec in E1. apply (@bshapes_ex _ brda). intros s Hs. apply E1, I1. exact Hs. }
  assert (X2 : exists t, bshapes (map (@sh A) (map aval args)) = Some t). { apply bshapes_spec in E2. apply (@bshapes_ex _ brd). intros s Hs. apply E2, I2. exact Hs. }
  destruct X1 as (s & Es). destruct X2 as (t & Et). rewrite (bshapes_perm _ _ E1 Es I1), (bshapes_perm _ _ E2 Et I2). apply HS; auto.
Qed.
Lemma shapes_all args : exs args = [] -> shapes_ok args.
Proof.
  intros E s t E1 E2. rewrite (@bshapes_perm _ _ s t E1 E2); [reflexivity|]. intros u. rewrite shape_in, E. cbn [map In]. tauto.
Qed.
(* ---- the general second-order term at one location ---- *)
Lemma sliced_good n (args : list (lapl A)) axs b args' : sliced n args axs b args' -> forall a, In a args' -> awf n a.
Proof. intros S a Ha. apply (@sliced_awf _ _ n args axs b args' S a Ha). Qed.
Lemma vmapped_general_good n f c2r fl extra axs eaxs mg th args : setup n f mg args axs extra eaxs -> has SPARSE_JHJ fl = false -> has LINEAR_IN_ONE fl = false ->
  (forall a, In a args -> good n a) -> let so := sh (o_fwd f (mg _ (xs_of args) extra)) in ne so -> (any_weak args = true -> plan_ok args axs extra eaxs) ->
  exists r, vmapped_jhj f c2r fl None extra axs eaxs mg th args = Some r /\ bto (sh r) so.
Proof.
  intros HS HJ HL HG so NE HP. assert (HM : has MULTIPLICATION fl = false) by (destruct (has MULTIPLICATION fl) eqn:E; auto; apply has_mult_one in E; congruence).
  apply (@vmapped_good A RA n f c2r fl None extra axs eaxs mg th args HS HJ (has_dot_mult _ HM) HG NE HP).
  - intros d Sd Ex Dd. destruct (@vmapped_general_total A RA n f c2r fl extra axs eaxs mg th d Sd HL Dd) as (r & E1 & E2). exists r. split; [exact E1|]. rewrite E2, Ex. reflexivity.
  - intros b args' es o' R S1 S2 So HR. unfold hess_transform. rewrite HJ, HM, HL. unfold general_jhj. destruct (@reduced_some A RA n args' o' R (@sliced_good n _ _ _ _ S1) So HR) as (g & Eg). rewrite Eg. cbn [bind]. eexists. split; [reflexivity|]. cbn [sh]. rewrite (proj1 S1). reflexivity.
Qed.
Lemma ew_general_any n phi d h c2r th args : (0 < n)%nat -> als args <> [] -> (forall v, In v args -> goodv n v) -> bshapes (map (@sh A) (map aval args)) <> None -> (length (als args) <= 2)%nat \/ any_weak (als args) = false \/ all_weak (als args) = true ->
  let f := ew_op phi d h in ne (sh (o_fwd f (map aval args))) -> shapes_ok args -> returns n f args (wrap_fl (ew_rule phi d h 0%Z None) c2r th args).
Proof.
  intros Hn Hne HG HB HL f NE HS. apply ew_any; auto. unfold jhj_trace. cbn [has].
  destruct (@vmapped_general_good n f c2r 0%Z (exs args) _ _ _ th (als args) (@ew_setup _ _ phi d h n args Hn Hne (fun v Hv => @good_vok n v (HG v Hv)) HB) eq_refl eq_refl (@good_als n args HG)) as (r & E1 & E2).
  - rewrite merge_avals. exact NE.
  - intros _. apply (@ew_plan n args HG HS).
  - rewrite merge_avals in E2. exists r. split; [exact E1|exact E2].
Qed.
Lemma ew_general_good n phi d h c2r th args : (0 < n)%nat -> als args <> [] -> (forall v, In v args -> goodv n v) -> bshapes (map (@sh A) (map aval args)) <> None -> (length (als args) <= 2)%nat ->
  let f := ew_op phi d h in ne (sh (o_fwd f (map aval args))) -> shapes_ok args -> returns n f args (wrap_fl (ew_rule phi d h 0%Z None) c2r th args).
Proof. intros Hn Hne HG HB HL f NE HH. apply ew_general_any; auto. Qed.
End S1.
Section S2.
Context {A : Type} {RA : CRing A}.
Notation aval := (@aval A).
Open Scope cr_scope.
Lemma als2 (u v : arg A) : (length (als [u; v]) <= 2)%nat.
Proof. destruct u, v; cbn; lia. Qed.
Lemma goods2 n (u v : arg A) : goodv n u -> goodv n v -> forall w, In w [u; v] -> goodv n w.
Proof. intros Hu Hv w [<-|[<-|[]]]; auto. Qed.
(* ---- multiplication ---- *)
Lemma dot_loc_some n f args (o : nd Z) R : (forall a, In a args -> awf n a) -> sh o = [R] -> (0 < R)%nat -> is_dot f (xs_of args) -> prod (sh (o_fwd f (xs_of args))) = 1%nat ->
  exists r0, dot_jhj f args (Some o) = Some r0 /\ sh r0 = sh (o_fwd f (xs_of args)).
Proof.
  intros Hw Ho HR Hd HP. pose proof Hd as (L2 & Hs & _). rewrite xs_length in L2. destruct args as [|a [|b [|? ?]]]; try discriminate. clear L2.
  destruct (@reduced_some A RA n [a; b] o R Hw Ho HR) as (g & E). destruct (@red_some A RA n [a; b] o R g Hw Ho E) as (_ & Hok).
  unfold dot_jhj, trace_jac_jacT. cbn [map] in E. rewrite E. cbn [bind]. pose proof Hok as [Lg _]. destruct g as [|x [|y [|? ?]]]; try discriminate Lg.
  cbn [xs_of map nth] in Hs. cbn [xs_of map] in Hok. rewrite <- Hs in Hok. rewrite (einsum2_red Hok). cbn [bind]. rewrite HP. cbn [Nat.eqb]. eauto.
Qed.
Lemma mul_good n c2r th u v : (0 < n)%nat -> als [u; v] <> [] -> goodv n u -> goodv n v -> bshapes [sh (aval u); sh (aval v)] <> None -> ne (sh (o_fwd op_mul [aval u; aval v])) ->
  returns n op_mul [u; v] (wrap_fl mul_rule c2r th [u; v]).
Proof.
  intros Hn Hne Hu Hv HB NE. pose proof (@goods2 n u v Hu Hv) as HG.
  refine (@ew_good A RA n _ _ _ MULTIPLICATION None c2r th [u; v] Hn Hne HG HB (als2 u v) NE _). fold (@op_mul A RA) in *.
  destruct (Nat.eq_dec (length (als [u; v])) 1) as [E|E].
  { exists nd0. split; [|apply bto_nil]. unfold jhj_trace. rewrite E. reflexivity. }
  assert (Hb : exists a b, u = AL a /\ v = AL b).
  { destruct u as [a|x], v as [b|y]; cbn in E, Hne; try congruence; eauto. }
  destruct Hb as (a & b & -> & ->). clear E Hne.
  pose proof (@ew_setup _ _ (fun v0 : list A => nth 0 v0 0 * nth 1 v0 0) (fun v0 a => match a with O => nth 1%nat v0 0 | S O => nth 0%nat v0 0 | _ => 0 end) (fun _ a b => match a, b with O, S O => 1 | S O, O => 1 | _, _ => 0 end) n [AL a; AL b] Hn ltac:(discriminate) (fun v Hv => @good_vok A RA n v (HG v Hv)) HB) as HS. fold (@op_mul A RA) in HS.
  pose proof (@ew_plan A RA n [AL a; AL b] HG (@shapes_all A [AL a; AL b] eq_refl)) as HPL.
  pose proof (@good_als A RA n _ HG) as HGA.
  cbn [als exs mask_of flat_map app map is_al length Wrap.aval] in *.
  assert (HPR : forall ys es, length ys = 2%nat -> length es = 0%nat -> (forall k, (k < 2)%nat -> sh (nth k ys nd0) = permute (sax (ndim (lx (nth k [a; b] la0))) (nth k [[]; []] [])) (sh (lx (nth k [a; b] la0)))) -> prod (sh (o_fwd (merged op_mul mgtt 2 es) ys)) = 1%nat).
  { intros ys es Ly Le Hsh. destruct ys as [|y0 [|y1 [|? ?]]]; try discriminate. destruct es; [|discriminate].
    assert (Z0 : sh y0 = []) by (specialize (Hsh 0%nat ltac:(lia)); cbn [nth] in Hsh; rewrite Hsh, sax_nil; reflexivity).
    assert (Z1 : sh y1 = []) by (specialize (Hsh 1%nat ltac:(lia)); cbn [nth] in Hsh; rewrite Hsh, sax_nil; reflexivity).
    cbn. unfold ew_shape. cbn [map]. rewrite Z0, Z1. reflexivity. }
  pose proof (@mul_dot_core A RA mgtt (lx a) (lx b) (merge_of_ok [true; true])) as HC.
  destruct (@vmapped_good A RA n op_mul c2r MULTIPLICATION None [] [[]; []] [] mgtt th [a; b] HS eq_refl eq_refl HGA NE (fun _ => HPL)) as (r & E1 & E2).
  - intros d Sd Ex Dd. destruct d as [|d0 [|d1 [|? ?]]]; try discriminate Ex. cbn [xs_of map] in Ex. injection Ex as X0 X1.
    destruct (@vmapped_dot_total A RA n op_mul c2r MULTIPLICATION [] [[]; []] [] mgtt th [d0; d1] Sd eq_refl) as (r & E1 & E2); auto.
    + cbn [xs_of map]. rewrite X0, X1. exact HC.
    + intros ys es Ly Le Hsh. apply HPR; auto. intros k Hk. rewrite (Hsh k Hk). destruct k as [|[|k]]; [| |lia]; cbn [nth]; rewrite ?X0, ?X1; reflexivity.
    + intros X. discriminate X.
    + exists r. split; [exact E1|]. rewrite E2. cbn [xs_of map]. rewrite X0, X1. reflexivity.
  - intros bi args' es o' R S1 S2 So HR. unfold hess_transform. change (has SPARSE_JHJ MULTIPLICATION) with false. change (has MULTIPLICATION MULTIPLICATION) with true. cbv iota.
    rewrite (proj1 S1). destruct (@dot_loc_some n (merged op_mul mgtt 2 es) args' o' R (@sliced_good A RA n _ _ _ _ S1) So HR) as (r0 & E1 & E2).
    + exact (@core_dot _ _ n op_mul mgtt [a; b] [[]; []] [] [] bi args' es eq_refl HC S1 S2).
    + destruct S1 as [L1 S1]. apply HPR; [rewrite xs_length; exact L1|apply (proj1 S2)|]. intros k Hk. rewrite xs_nth by (cbn in L1; lia). destruct (S1 k Hk) as ((E & _) & _). rewrite <- E. reflexivity.
    + exists r0. change (length [a; b]) with 2%nat. rewrite E1, E2. split; reflexivity.
  - exists r. split; [exact E1|exact E2].
Qed.
(* ---- division ---- *)
Section DivS.
Context (inv : A -> A).
Lemma div_good n c2r th u v : (0 < n)%nat -> als [u; v] <> [] -> goodv n u -> goodv n v -> bshapes [sh (aval u); sh (aval v)] <> None -> ne (sh (o_fwd (op_div inv) [aval u; aval v])) ->
  (is_al v = true -> shapes_ok [u; v]) -> returns n (op_div inv) [u; v] (wrap_fl (div_rule inv) c2r th [u; v]).
Proof.
  intros Hn Hne Hu Hv HB NE HSh. pose proof (@goods2 n u v Hu Hv) as HG.
  refine (@ew_good A RA n _ _ _ LINEAR_IN_FIRST (Some (div_jhj inv)) c2r th [u; v] Hn Hne HG HB (als2 u v) NE _).
  match goal with |- context [jhj_trace ?ff] => change ff with (op_div inv) end.
  assert (HS : setup n (op_div inv) (merge_of (mask_of [u; v])) (als [u; v]) (map (fun _ => []) (als [u; v])) (exs [u; v]) (map (fun _ => []) (exs [u; v]))) by (apply ew_setup; auto; intros w Hw; apply good_vok; auto).
  assert (HPL : is_al v = true -> plan_ok (als [u; v]) (map (fun _ => []) (als [u; v])) (exs [u; v]) (map (fun _ => []) (exs [u; v]))) by (intros Hx; apply (@ew_plan A RA n [u; v] HG (HSh Hx))).
  pose proof (@good_als A RA n _ HG) as HGA.
  assert (SC : forall ks (axs : list (list nat)) bi args' k, (forall i, nth i axs [] = []) -> sliced n ks axs bi args' -> (k < length ks)%nat -> sh (lx (nth k args' la0)) = []).
  { intros ks axs bi args' k Hax [_ S1] Hk. destruct (S1 k Hk) as ((E & _) & _). rewrite <- E. cbn [bslice sh]. rewrite Hax, sax_nil. reflexivity. }
  assert (N1 : forall i, nth i [[]] [] = ([] : list nat)) by (intros [|[|i]]; reflexivity). assert (N2 : forall i, nth i [[]; []] [] = ([] : list nat)) by (intros [|[|[|i]]]; reflexivity).
  destruct u as [a|x], v as [b|y]; cbn [als exs mask_of flat_map app map is_al length] in *.
  - destruct (@vmapped_good A RA n (op_div inv) c2r LINEAR_IN_FIRST (Some (div_jhj inv)) [] [[]; []] [] mgtt th [a; b] HS eq_refl eq_refl HGA NE (fun _ => HPL eq_refl)) as (r & E1 & E2).
    3:{ exists r. split; [exact E1|exact E2]. }
    + intros d Sd Ex Dd. destruct (@vmapped_custom_total A RA n (op_div inv) c2r LINEAR_IN_FIRST (div_jhj inv) [] [[]; []] [] mgtt th d Sd eq_refl Dd) as (r & E1 & E2).
      2:{ exists r. split; [exact E1|]. rewrite E2, Ex. reflexivity. }
      destruct d as [|d0 [|d1 [|? ?]]]; try discriminate Ex.
      intros brd bi args' es _ _ S1 S2. pose proof (@sliced_dense_la A RA n _ _ _ _ Dd S1) as HD'. pose proof (@sliced_awf _ _ n _ _ _ _ S1) as HW'.
      pose proof (SC _ _ _ _ 0%nat N2 S1 ltac:(cbn; lia)) as Sa. pose proof (SC _ _ _ _ 1%nat N2 S1 ltac:(cbn; lia)) as Sb.
      destruct S1 as [L1 S1]. destruct S2 as [L2 _]. destruct es; [|discriminate]. destruct args' as [|a' [|b' [|? ?]]]; try discriminate. cbn [nth] in Sa, Sb.
      destruct (@reduced_total A RA _ HD') as (g & EG). destruct (@red_none _ _ n [a'; b'] g Hn ltac:(discriminate) HW' EG) as (R & _ & (RL & RS) & _).
      destruct g as [|L [|Rg [|? ?]]]; try discriminate RL. destruct (RS 0%nat ltac:(cbn; lia)) as [S0 _]. destruct (RS 1%nat ltac:(cbn; lia)) as [S1' _]. cbn [nth xs_of map] in S0, S1'. rewrite Sa in S0. rewrite Sb in S1'.
      unfold div_jhj. match goal with |- context [match ?m with [] => None | _ => _ end] => replace m with [lx a'; lx b'] by reflexivity end. rewrite Sa, Sb. cbn [sheq list_eq_dec list_rec list_rect andb negb]. cbn [map] in EG. rewrite EG. cbn [bind].
      unfold matmul. cbn [transpose sh]. rewrite S0, S1'. cbn [permute map nth]. rewrite Nat.eqb_refl. cbn [bind].
      eexists. split; [reflexivity|]. cbn [sh merged o_fwd]. change (@mgtt (nd A) (xs_of [a'; b']) []) with [lx a'; lx b']. cbn [op_div ew_op o_fwd sh]. unfold ew_shape. cbn [map]. rewrite Sa, Sb. reflexivity.
    + intros bi args' es o' R0 S1 S2 So HR. unfold hess_transform. change (has SPARSE_JHJ LINEAR_IN_FIRST) with false. cbv iota. pose proof (@sliced_awf _ _ n _ _ _ _ S1) as HW'.
      pose proof (SC _ _ _ _ 0%nat N2 S1 ltac:(cbn; lia)) as Sa. pose proof (SC _ _ _ _ 1%nat N2 S1 ltac:(cbn; lia)) as Sb.
      destruct S1 as [L1 S1]. destruct S2 as [L2 _]. destruct es; [|discriminate]. destruct args' as [|a' [|b' [|? ?]]]; try discriminate. cbn [nth] in Sa, Sb.
      destruct (@reduced_some A RA n [a'; b'] o' R0 HW' So HR) as (g & EG). destruct (@red_some A RA n [a'; b'] o' R0 g HW' So EG) as (_ & (RL & RS)).
      destruct g as [|L [|Rg [|? ?]]]; try discriminate RL. destruct (RS 0%nat ltac:(cbn; lia)) as [S0 _]. destruct (RS 1%nat ltac:(cbn; lia)) as [S1' _]. cbn [nth xs_of map] in S0, S1'. rewrite Sa in S0. rewrite Sb in S1'.
      unfold div_jhj. match goal with |- context [match ?m with [] => None | _ => _ end] => replace m with [lx a'; lx b'] by reflexivity end. rewrite Sa, Sb. cbn [sheq list_eq_dec list_rec list_rect andb negb]. cbn [map] in EG. rewrite EG. cbn [bind].
      unfold matmul. cbn [transpose sh]. rewrite S0, S1'. cbn [permute map nth]. rewrite Nat.eqb_refl. cbn [bind].
      eexists. split; [reflexivity|]. cbn [sh merged o_fwd length]. change (@mgtt (nd A) (xs_of [a'; b']) []) with [lx a'; lx b']. cbn [op_div ew_op o_fwd sh]. unfold ew_shape. cbn [map]. rewrite Sa, Sb. reflexivity.
  - exists nd0. split; [reflexivity|apply bto_nil].
  - destruct (@vmapped_good A RA n (op_div inv) c2r LINEAR_IN_FIRST (Some (div_jhj inv)) [x] [[]] [[]] mgft th [b] HS eq_refl eq_refl HGA NE (fun _ => HPL eq_refl)) as (r & E1 & E2).
    3:{ exists r. split; [exact E1|exact E2]. }
    + intros d Sd Ex Dd. destruct (@vmapped_custom_total A RA n (op_div inv) c2r LINEAR_IN_FIRST (div_jhj inv) [x] [[]] [[]] mgft th d Sd eq_refl Dd) as (r & E1 & E2).
      2:{ exists r. split; [exact E1|]. rewrite E2, Ex. reflexivity. }
      destruct d as [|d0 [|? ?]]; try discriminate Ex.
      intros brd bi args' es _ _ S1 S2. pose proof (@sliced_dense_la A RA n _ _ _ _ Dd S1) as HD'. pose proof (@sliced_awf _ _ n _ _ _ _ S1) as HW'.
      pose proof (SC _ _ _ _ 0%nat N1 S1 ltac:(cbn; lia)) as Sb.
      destruct S1 as [L1 S1]. destruct S2 as (L2 & _ & S2). destruct es as [|ex [|? ?]]; try discriminate. destruct args' as [|b' [|? ?]]; try discriminate. cbn [nth] in Sb.
      assert (Se : sh ex = []) by (destruct (S2 0%nat ltac:(cbn; lia)) as (E & _); cbn [nth] in E; rewrite <- E; cbn [bslice sh]; rewrite sax_nil; reflexivity).
      assert (HD2 : forall z, In z [b'; b'] -> dense_la z) by (intros z [<-|[<-|[]]]; apply HD'; left; reflexivity).
      assert (HW2 : forall z, In z [b'; b'] -> awf n z) by (intros z [<-|[<-|[]]]; apply HW'; left; reflexivity).
      destruct (@reduced_total A RA _ HD2) as (g & EG). destruct (@red_none _ _ n [b'; b'] g Hn ltac:(discriminate) HW2 EG) as (R & _ & Hok & _). pose proof Hok as [RL _].
      destruct g as [|L [|Rg [|? ?]]]; try discriminate RL. cbn [xs_of map] in Hok.
      unfold div_jhj. match goal with |- context [match ?m with [] => None | _ => _ end] => replace m with [ex; lx b'] by reflexivity end. rewrite Se, Sb. cbn [sheq list_eq_dec list_rec list_rect andb negb]. unfold trace_jac_jacT. cbn [map] in EG. rewrite EG. cbn [bind]. rewrite (einsum2_red Hok). cbn [bind].
      eexists. split; [reflexivity|]. cbn [sh merged o_fwd length]. change (@mgft (nd A) (xs_of [b']) [ex]) with [ex; lx b']. cbn [op_div ew_op o_fwd sh]. unfold ew_shape. cbn [map]. rewrite Se, Sb. reflexivity.
    + intros bi args' es o' R0 S1 S2 So HR. unfold hess_transform. change (has SPARSE_JHJ LINEAR_IN_FIRST) with false. cbv iota. pose proof (@sliced_awf _ _ n _ _ _ _ S1) as HW'.
      pose proof (SC _ _ _ _ 0%nat N1 S1 ltac:(cbn; lia)) as Sb.
      destruct S1 as [L1 S1]. destruct S2 as (L2 & _ & S2). destruct es as [|ex [|? ?]]; try discriminate. destruct args' as [|b' [|? ?]]; try discriminate. cbn [nth] in Sb.
      assert (Se : sh ex = []) by (destruct (S2 0%nat ltac:(cbn; lia)) as (E & _); cbn [nth] in E; rewrite <- E; cbn [bslice sh]; rewrite sax_nil; reflexivity).
      assert (HW2 : forall z, In z [b'; b'] -> awf n z) by (intros z [<-|[<-|[]]]; apply HW'; left; reflexivity).
      destruct (@reduced_some A RA n [b'; b'] o' R0 HW2 So HR) as (g & EG). destruct (@red_some A RA n [b'; b'] o' R0 g HW2 So EG) as (_ & Hok). pose proof Hok as [RL _].
      destruct g as [|L [|Rg [|? ?]]]; try discriminate RL. cbn [xs_of map] in Hok.
      unfold div_jhj. match goal with |- context [match ?m with [] => None | _ => _ end] => replace m with [ex; lx b'] by reflexivity end. rewrite Se, Sb. cbn [sheq list_eq_dec list_rec list_rect andb negb]. unfold trace_jac_jacT. cbn [map] in EG. rewrite EG. cbn [bind]. rewrite (einsum2_red Hok). cbn [bind].
      eexists. split; [reflexivity|]. cbn [sh merged o_fwd length]. change (@mgft (nd A) (xs_of [b']) [ex]) with [ex; lx b']. cbn [op_div ew_op o_fwd sh]. unfold ew_shape. cbn [map]. rewrite Se, Sb. reflexivity.
  - exfalso. apply Hne. reflexivity.
Qed.
End DivS.
End S2.
Section S3.
Context {A : Type} {RA : CRing A}.
Notation aval := (@aval A).
Open Scope cr_scope.
(* ---- functions of whole arrays with one derivative-carrying argument ---- *)
Lemma full_kept (x : nd A) so : bto (permute (keep_pos (ndim x) (norm_axes (ndim x) (map Z.of_nat (seq 0 (ndim x))))) (sh x)) so.
Proof. rewrite norm_seq, keep_seq. apply bto_nil. Qed.
Lemma fn_good n f fl cu c2r th args : (0 < n)%nat -> als args <> [] -> length (als args) = 1%nat -> (forall v, In v args -> goodv n v) -> has SUMMATION fl = false -> ne (sh (o_fwd f (map aval args))) ->
  (exists h, jhj_trace f c2r fl cu (exs args) (map (fun a => seq 0 (ndim (lx a))) (als args)) (map (fun e => seq 0 (ndim e)) (exs args)) (merge_of (mask_of args)) th (als args) = Some h /\ bto (sh h) (sh (o_fwd f (map aval args)))) ->
  returns n f args (wrap_fl (fn_rule (Fn f None None) fl cu) c2r th args).
Proof.
  intros Hn Hne H1 HG HS NE HH. refine (@rule_good A RA n (fn_rule (Fn f None None) fl cu) c2r th args _ _ Hn Hne eq_refl HG (canon_none _ _) (canon_none _ _) NE _ _ _ _ _ _ HH); cbn [fn_rule r_fn r_fl r_axes f_kwaxes f_op f_iop].
  - intros a Ha. apply struct_full. exact HS.
  - exact I.
  - intros x _ _ _. cbn [axes_of]. apply full_kept.
  - intros X. discriminate X.
  - intros g filled _ X. discriminate X.
  - right. exact H1.
Qed.
Lemma linear_good n f c2r th args : (0 < n)%nat -> als args <> [] -> length (als args) = 1%nat -> (forall v, In v args -> goodv n v) -> ne (sh (o_fwd f (map aval args))) ->
  returns n f args (wrap_fl (fn_rule (Fn f None None) LINEAR None) c2r th args).
Proof. intros Hn Hne H1 HG NE. apply fn_good; auto. exists nd0. split; [reflexivity|apply bto_nil]. Qed.
Lemma reduced_seq s : reduced_shape s (seq 0 (length s)) = [].
Proof. unfold reduced_shape. rewrite keepax_all. reflexivity. Qed.
Lemma fn_plan n args : (forall v, In v args -> goodv n v) -> plan_ok (als args) (map (fun a : lapl A => seq 0 (ndim (lx a))) (als args)) (exs args) (map (fun e : nd A => seq 0 (ndim e)) (exs args)).
Proof.
  intros HG brda brd E1 E2. unfold brdcast_shape in *.
  assert (HW : forall a, In a (als args) -> awf n a) by (intros a Ha; apply (@good_als A RA n args HG a Ha)).
  assert (HN : forall l (r : shape), (forall s, In s l -> s = []) -> bshapes l = Some r -> r = []).
  { intros l r Hl E. apply bshapes_spec in E. apply bto_antisym; [|apply bto_nil]. apply E. intros s Hs. rewrite (Hl s Hs). apply bto_refl. }
  rewrite (HN _ brda) with (2 := E1); [rewrite (HN _ brd) with (2 := E2); [reflexivity|]|].
  - intros s Hs. unfold leaves_of in Hs. rewrite map_app in Hs. apply in_app_or in Hs. destruct Hs as [Hs|Hs]; apply in_map_iff in Hs; destruct Hs as ([s0 ax] & <- & Hl); cbn [fst snd].
    + apply in_combine_nth' with (dx := []) (dy := []) in Hl. destruct Hl as (k & K1 & K2 & Hl). rewrite map_length in K1. injection Hl as -> ->. rewrite !nth_map_in with (dx := la0) by exact K1. apply reduced_seq.
    + apply in_combine_nth' with (dx := []) (dy := []) in Hl. destruct Hl as (k & K1 & K2 & Hl). rewrite map_length in K1. injection Hl as -> ->. rewrite !nth_map_in with (dx := nd0) by exact K1. apply reduced_seq.
  - intros s Hs. apply in_map_iff in Hs. destruct Hs as (l & <- & Hl). destruct (@mleaves_inv _ _ n (als args) _ l (map_length _ _) HW Hl) as (a & k & Ha & ->). cbn [fst snd]. rewrite reduced_jac. rewrite nth_map_in with (dx := la0) by exact Ha. apply reduced_seq.
Qed.
Lemma general_fn_good n f c2r th args : (0 < n)%nat -> als args <> [] -> length (als args) = 1%nat -> (forall v, In v args -> goodv n v) -> ne (sh (o_fwd f (map aval args))) -> op_ext f (map aval args) ->
  returns n f args (wrap_fl (fn_rule (Fn f None None) 0%Z None) c2r th args).
Proof.
  intros Hn Hne H1 HG NE HE. apply fn_good; auto. unfold jhj_trace.
  destruct (@vmapped_general_good A RA n f c2r 0%Z (exs args) _ _ _ th (als args) (@fn_setup _ _ n f args Hn Hne (fun v Hv => @good_vok A RA n v (HG v Hv)) HE) eq_refl eq_refl (@good_als A RA n args HG)) as (r & E1 & E2).
  - rewrite merge_avals. exact NE.
  - intros _. apply (@fn_plan n args HG).
  - rewrite merge_avals in E2. exists r. split; [exact E1|exact E2].
Qed.
(* ---- reductions of one array ---- *)
Lemma red_good n f axes fl c2r th (a : lapl A) : (0 < n)%nat -> good n a -> axes <> [] -> ax_ok (lx a) axes ->
  (if has SUMMATION fl then is_sum f (lx a) (norm_axes (ndim (lx a)) axes) else reduces f (lx a) (norm_axes (ndim (lx a)) axes)) ->
  ne (sh (o_fwd f [lx a])) -> (has SUMMATION fl = false -> bto (permute (keep_pos (ndim (lx a)) (norm_axes (ndim (lx a)) axes)) (sh (lx a))) (sh (o_fwd f [lx a]))) ->
  (exists h, jhj_trace f c2r fl None [] [seq 0 (ndim (lx a))] [] (merge_of [true]) th [a] = Some h /\ bto (sh h) (sh (o_fwd f [lx a]))) ->
  returns n f [AL a] (wrap_fl (red_rule f axes fl) c2r th [AL a]).
Proof.
  intros Hn HG Hax HA HS NE Hb HH. assert (Hne : als [AL a] <> []) by discriminate. assert (HGv : forall v, In v [AL a] -> goodv n v) by (intros v [<-|[]]; exact HG).
  refine (@rule_good A RA n (red_rule f axes fl) c2r th [AL a] _ _ Hn Hne eq_refl HGv (canon_none _ _) (canon_none _ _) NE _ _ _ _ _ _ HH); cbn [red_rule fn_rule r_fn r_fl r_axes f_kwaxes f_op f_iop].
  - intros b Hlt. cbn in Hlt. assert (b = 0%nat) by lia. subst b. apply (@red_struct A RA f a axes fl Hax HA HS).
  - exact I.
  - intros x [<-|[]] _ H2. cbn [axes_of]. apply Hb. exact H2.
  - intros X. discriminate X.
  - intros g filled _ X. discriminate X.
  - right. reflexivity.
Qed.
Lemma sum_rule_good n axes c2r th (a : lapl A) : (0 < n)%nat -> good n a -> axes <> [] -> NoDup axes -> (forall d, In d axes -> (d < ndim (lx a))%nat) ->
  returns n (op_sum axes) [AL a] (wrap_fl (sum_rule (map Z.of_nat axes) axes) c2r th [AL a]).
Proof.
  intros Hn HG Hne ND HA. unfold sum_rule. apply red_good; auto.
  - destruct axes; [congruence|discriminate].
  - unfold ax_ok. rewrite norm_nat. auto.
  - change (has SUMMATION SUMMATION) with true. cbv iota. rewrite norm_nat. apply sum_is_sum.
  - cbn [op_sum o_fwd]. destruct HG as (_ & _ & NE). destruct (@keep_ne (sh (lx a)) axes HA NE) as [K _]. exact K.
  - intros X. discriminate X.
  - exists nd0. split; [reflexivity|apply bto_nil].
Qed.
Lemma linred_good n f axes c2r th (a : lapl A) : (0 < n)%nat -> good n a -> axes <> [] -> NoDup axes -> (forall d, In d axes -> (d < ndim (lx a))%nat) ->
  reduces f (lx a) axes -> ne (sh (o_fwd f [lx a])) -> bto (permute (keep_pos (ndim (lx a)) axes) (sh (lx a))) (sh (o_fwd f [lx a])) ->
  returns n f [AL a] (wrap_fl (red_rule f (map Z.of_nat axes) 15%Z) c2r th [AL a]).
Proof.
  intros Hn HG Hne ND HA HR NE Hb. apply red_good; auto; rewrite ?norm_nat; auto.
  - destruct axes; [congruence|discriminate].
  - unfold ax_ok. rewrite norm_nat. auto.
  - exists nd0. split; [reflexivity|apply bto_nil].
Qed.
Lemma redn_good n f axes c2r th (a : lapl A) : (0 < n)%nat -> good n a -> axes <> [] -> NoDup axes -> (forall d, In d axes -> (d < ndim (lx a))%nat) ->
  reduces f (lx a) axes -> ne (sh (o_fwd f [lx a])) -> bto (permute (keep_pos (ndim (lx a)) axes) (sh (lx a))) (sh (o_fwd f [lx a])) -> op_ext f [lx a] ->
  returns n f [AL a] (wrap_fl (red_rule f (map Z.of_nat axes) REDUCTION) c2r th [AL a]).
Proof.
  intros Hn HG Hne ND HA HR NE Hb HE. apply red_good; auto; rewrite ?norm_nat; auto.
  - destruct axes; [congruence|discriminate].
  - unfold ax_ok. rewrite norm_nat. auto.
  - assert (HGv : forall v, In v [AL a] -> goodv n v) by (intros v [<-|[]]; exact HG). assert (Hn1 : als [AL a] <> []) by discriminate.
    destruct (@vmapped_general_good A RA n f c2r REDUCTION [] _ _ _ th [a] (@fn_setup _ _ n f [AL a] Hn Hn1 (fun v Hv => @good_vok A RA n v (HGv v Hv)) HE) eq_refl eq_refl (@good_als A RA n [AL a] HGv) NE) as (r & E1 & E2).
    + intros _. apply (@fn_plan n [AL a] HGv).
    + exists r. split; [exact E1|exact E2].
Qed.
(* ---- indexing ---- *)
Lemma merge_args (args : list (arg A)) : merge_of (mask_of args) (map (@AL A) (als args)) (map (@AX A) (exs args)) = args.
Proof.
  unfold merge_of. induction args as [|[a|x] l IH]; [reflexivity| |].
  - change (AL a :: merge_mask (mask_of l) (map (@AL A) (als l)) (map (@AX A) (exs l)) = AL a :: l). rewrite IH. reflexivity.
  - change (AX x :: merge_mask (mask_of l) (map (@AL A) (als l)) (map (@AX A) (exs l)) = AX x :: l). rewrite IH. reflexivity.
Qed.
Lemma al_pos (args : list (arg A)) j : (j < length args)%nat -> is_al (nth j args (AX nd0)) = true -> exists a, (a < length (als args))%nat /\ j = posof (merge_of (mask_of args)) (length (als args)) (length (exs args)) a.
Proof.
  intros Hj Ha. destruct (@merge_place (merge_of (mask_of args)) (length (als args)) (length (exs args)) j (merge_args_ok args)) as [(a & L & E)|(e & He & _ & _ & H)].
  - rewrite len_split. exact Hj.
  - exists a. auto.
  - exfalso. specialize (H _ (AX nd0) (map (@AL A) (als args)) (map (@AX A) (exs args))). rewrite !map_length in H. specialize (H eq_refl eq_refl). rewrite merge_args in H. rewrite H in Ha. rewrite nth_map_in with (dx := nd0) in Ha by exact He. discriminate.
Qed.
Lemma index_rule_any n g ok filled c2r th args : (0 < n)%nat -> als args <> [] -> (length (als args) <= 2)%nat \/ any_weak (als args) = false \/ all_weak (als args) = true -> (forall v, In v args -> goodv n v) -> iop_wf g (map (@sh A) (map aval args)) -> ne (i_shape g) ->
  (ok = true -> forall p, inb p (i_shape g) -> is_al (nth (fst (i_src g p)) args (AX nd0)) = true) ->
  returns n (iop_op g) args (wrap_fl (index_rule g ok filled) c2r th args).
Proof.
  intros Hn Hne HL HG Hg NE HS.
  assert (HH : exists h, jhj_trace (iop_op g) c2r INDEXING None (exs args) (map (fun a => seq 0 (ndim (lx a))) (als args)) (map (fun e => seq 0 (ndim e)) (exs args)) (merge_of (mask_of args)) th (als args) = Some h /\ bto (sh h) (sh (o_fwd (iop_op g) (map aval args)))) by (exists nd0; split; [reflexivity|apply bto_nil]).
  refine (@rule_good_any A RA n (index_rule g ok filled) c2r th args _ _ Hn Hne eq_refl HG (canon_none _ _) (canon_none _ _) NE _ _ _ _ _ _ HH); cbn [index_rule fn_rule r_fn r_fl r_axes f_kwaxes f_op f_iop].
  - intros a Ha. apply struct_full. reflexivity.
  - unfold iop_ok. cbn [f_iop]. split; [reflexivity|exact Hg].
  - intros x _ _ _. cbn [axes_of]. apply full_kept.
  - intros X. discriminate X.
  - intros g' filled' _ X p Hp. injection X as <- -> <-. destruct (Hg p Hp) as [Hlt _]. rewrite !map_length in Hlt. apply al_pos; auto.
  - change (has INDEXING INDEXING || axes_nil None) with true. rewrite andb_true_r. destruct HL as [HL|[HL|HL]]; auto. destruct (all_weak (als args)); auto.
Qed.
Lemma index_rule_good n g ok filled c2r th args : (0 < n)%nat -> als args <> [] -> (length (als args) <= 2)%nat -> (forall v, In v args -> goodv n v) -> iop_wf g (map (@sh A) (map aval args)) -> ne (i_shape g) ->
  (ok = true -> forall p, inb p (i_shape g) -> is_al (nth (fst (i_src g p)) args (AX nd0)) = true) ->
  returns n (iop_op g) args (wrap_fl (index_rule g ok filled) c2r th args).
Proof. intros Hn Hne HL HG Hg NE HS. apply index_rule_any; auto. Qed.
End S3.

Section S4.
Context {A : Type} {RA : CRing A}.
Notation aval := (@aval A).
Open Scope cr_scope.
(* ---- dot_general with one derivative-carrying operand ---- *)
Lemma dotlast_struct u v px py K (Eu : sh (aval u) = px ++ [K]) (Ev : sh (aval v) = py ++ [K]) a : (a < length (als [u; v]))%nat ->
  struct_at (merged op_dotlast (merge_of (mask_of [u; v])) (length (als [u; v])) (exs [u; v])) None 827%Z (Some [(-1)%Z]) (xs_of (als [u; v])) a.
Proof.
  intros Ha.
  assert (Nu : (0 < ndim (aval u))%nat) by (unfold ndim; rewrite Eu, app_length; cbn; lia).
  assert (Nv : (0 < ndim (aval v))%nat) by (unfold ndim; rewrite Ev, app_length; cbn; lia).
  unfold struct_at. cbn [axes_of f_op f_kwaxes]. destruct (@at_pos _ _ [u; v] a Ha) as [E HP]. set (P := posof (merge_of (mask_of [u; v])) (length (als [u; v])) (length (exs [u; v])) a) in *.
  assert (EX : nth P (map aval [u; v]) nd0 = nth a (xs_of (als [u; v])) nd0).
  { rewrite <- xs_lift, !xs_at' by (rewrite ?map_length; auto). rewrite E. reflexivity. }
  assert (HA : nth a (xs_of (als [u; v])) nd0 = aval u /\ P = 0%nat \/ nth a (xs_of (als [u; v])) nd0 = aval v /\ P = 1%nat).
  { rewrite <- EX. destruct P as [|[|P']]; cbn [map nth length] in *; auto. lia. }
  rewrite norm_last by (destruct HA as [[-> _]|[-> _]]; auto).
  split; [repeat constructor; intros []|]. split; [intros d [<-|[]]; destruct HA as [[-> _]|[-> _]]; lia|]. change (has SUMMATION 827%Z) with false. cbv iota.
  unfold reduces_at. rewrite merged_fwd. cbn [merged o_d]. fold P. rewrite merge_avals. cbn [map].
  assert (KP : forall (x : nd A) pre, sh x = pre ++ [K] -> keep_pos (ndim x) [(ndim x - 1)%nat] = seq 0 (length pre)).
  { intros x pre Ex. unfold ndim. rewrite Ex, app_length. cbn [length]. rewrite Nat.add_1_r. replace (S (length pre) - 1)%nat with (length pre) by lia. apply keepax_last. }
  assert (PS : forall (pre : list nat) k, permute (seq 0 (length pre)) (pre ++ [k]) = pre) by (intros; apply permute_seq_app).
  intros p q Hp Hq Hx. destruct HA as [[EA EP]|[EA EP]]; rewrite EA in *; rewrite EP; cbn [op_dotlast o_d nth].
  * rewrite (KP _ px Eu) in Hx. rewrite Eu in Hq, Hx |- *. rewrite removelast_snoc. destruct (@snoc_inb _ _ _ Hq) as (q0 & j & -> & Hq0 & Hj). rewrite removelast_snoc. rewrite ixeqb_neq; auto.
    rewrite PS in Hx. rewrite <- (inb_length Hq0), PS in Hx. exact Hx.
  * rewrite (KP _ py Ev) in Hx. rewrite Ev in Hq, Hx |- *. rewrite removelast_snoc. destruct (@snoc_inb _ _ _ Hq) as (q0 & j & -> & Hq0 & Hj). rewrite removelast_snoc. rewrite ixeqb_neq; auto.
    rewrite PS in Hx. rewrite <- (inb_length Hq0), PS in Hx. exact Hx.
Qed.
Lemma dotlast_good n c2r th u v px py K so : (0 < n)%nat -> length (als [u; v]) = 1%nat -> goodv n u -> goodv n v ->
  sh (aval u) = px ++ [K] -> sh (aval v) = py ++ [K] -> bshape2 px py = Some so -> ne so ->
  returns n op_dotlast [u; v] (wrap_fl dotlast_rule c2r th [u; v]).
Proof.
  intros Hn H1 Gu Gv Eu Ev HB NE. assert (Hne : als [u; v] <> []) by (intros X; rewrite X in H1; discriminate).
  destruct (bshape2_ub _ _ HB) as [U1 U2].
  assert (Nu : (0 < ndim (aval u))%nat) by (unfold ndim; rewrite Eu, app_length; cbn; lia).
  assert (Nv : (0 < ndim (aval v))%nat) by (unfold ndim; rewrite Ev, app_length; cbn; lia).
  assert (HV : forall w, In w [u; v] -> goodv n w) by (intros w [<-|[<-|[]]]; auto).
  assert (HND : forall w, In w [u; v] -> (0 < ndim (aval w))%nat) by (intros w [<-|[<-|[]]]; auto).
  assert (Na : forall a, In a (als [u; v]) -> (0 < ndim (lx a))%nat) by (intros a Ha; apply In_als in Ha; apply (HND _ Ha)).
  assert (Ne : forall x, In x (exs [u; v]) -> (0 < ndim x)%nat).
  { intros x Hx. destruct u as [u|u], v as [v|v]; cbn [exs flat_map app In] in Hx; intuition (subst; auto). }
  assert (ESO : sh (o_fwd op_dotlast [aval u; aval v]) = so) by (cbn [op_dotlast o_fwd sh map]; rewrite Eu, Ev, !removelast_snoc, bsh2, HB; reflexivity).
  assert (HH : exists h, jhj_trace op_dotlast c2r 827%Z None (exs [u; v]) (map (fun a => [(ndim (lx a) - 1)%nat]) (als [u; v])) (map (fun x => [(ndim x - 1)%nat]) (exs [u; v])) (merge_of (mask_of [u; v])) th (als [u; v]) = Some h /\ bto (sh h) (sh (o_fwd op_dotlast (map aval [u; v])))).
  { exists nd0. split; [|apply bto_nil]. unfold jhj_trace. rewrite H1. reflexivity. }
  assert (NE' : ne (sh (o_fwd op_dotlast (map aval [u; v])))) by (cbn [map]; rewrite ESO; exact NE).
  refine (@rule_good A RA n dotlast_rule c2r th [u; v] _ _ Hn Hne eq_refl HV (@canon_last _ (fun a => ndim (lx a)) (als [u; v]) Na) (@canon_last _ (fun x => ndim x) (exs [u; v]) Ne) NE' _ _ _ _ _ _ HH); cbn [dotlast_rule r_fn r_fl r_axes f_kwaxes f_op f_iop].
  - intros a Ha. exact (@dotlast_struct u v px py K Eu Ev a Ha).
  - exact I.
  - intros x Hx _ _. cbn [axes_of]. cbn [map]. rewrite ESO.
    assert (KP : forall (y : nd A) pre, sh y = pre ++ [K] -> permute (keep_pos (ndim y) (norm_axes (ndim y) [(-1)%Z])) (sh y) = pre).
    { intros y pre Ey. rewrite norm_last by (unfold ndim; rewrite Ey, app_length; cbn; lia). unfold ndim. rewrite Ey, app_length. cbn [length]. rewrite Nat.add_1_r. replace (S (length pre) - 1)%nat with (length pre) by lia. 
      change (keep_pos (S (length pre)) [length pre]) with (keepax (S (length pre)) [length pre]). rewrite keepax_last. apply permute_seq_app. }
    unfold xs_of in Hx. apply in_map_iff in Hx. destruct Hx as (a & <- & Ha). apply In_als in Ha. destruct Ha as [->|[->|[]]]; cbn [Verif.Wrap.aval] in *; [rewrite (KP _ _ Eu)|rewrite (KP _ _ Ev)]; auto.
  - intros X. discriminate X.
  - intros g filled _ X. discriminate X.
  - right. exact H1.
Qed.
Lemma index_any n g c2r th u : (0 < n)%nat -> goodv n u -> iop_wf g [sh (aval u)] -> (forall p, inb p (i_shape g) -> fst (i_src g p) = 0%nat) -> (is_al u = true -> ne (i_shape g)) ->
  exists r, wrap_fl (index_rule g true true) c2r th [u] = Some r /\ goodv n r /\ is_al r = is_al u.
Proof.
  intros Hn Gu Hw H0 NE. destruct u as [a|x].
  - destruct (@index_rule_good A RA n g true true c2r th [AL a] Hn) as (b & E & Gb & _); [discriminate|cbn; lia|intros v [<-|[]]; exact Gu|exact Hw|apply NE; reflexivity|intros _ p Hp; rewrite (H0 p Hp); reflexivity|].
    exists (AL b). auto.
  - eexists. split; [reflexivity|]. split; [exact I|reflexivity].
Qed.
Lemma ne_app s t : ne s -> ne t -> ne (s ++ t).
Proof. intros (p & Hp) (q & Hq). exists (p ++ q). apply inb_app; auto. Qed.
Lemma ne_ones k : ne (repeat 1%nat k).
Proof. exists (repeat 0%nat k). induction k as [|k IH]; cbn; constructor; auto. Qed.
Theorem dot_general_good n c2r th D u v : (0 < n)%nat -> length (als [u; v]) = 1%nat -> goodv n u -> goodv n v -> dims_ok D (sh (aval u)) (sh (aval v)) -> ne (dot_shape D (sh (aval u)) (sh (aval v))) ->
  exists a, dot_general c2r th D u v = Some (AL a) /\ good n a.
Proof.
  intros Hn H1 Gu Gv HD NE. unfold dot_general. set (sl := sh (aval u)) in *. set (sr := sh (aval v)) in *.
  assert (E0 : negb (is_al u) && negb (is_al v) = false) by (destruct u, v; cbn in *; congruence). rewrite E0.
  assert (Hne : als [u; v] <> []) by (intros X; rewrite X in H1; discriminate). pose proof HD as (N1 & N2 & N3 & N4 & N5 & N6 & N7 & N8).
  assert (Nel : is_al u = true -> ne sl) by (destruct u; [intros _; apply Gu|discriminate]). assert (Ner : is_al v = true -> ne sr) by (destruct v; [intros _; apply Gv|discriminate]).
  assert (NK : forall s, prod s <> 0%nat -> ne [prod s]) by (intros s Hs; exists [0%nat]; constructor; [lia|constructor]).
  destruct (@index_any n (rearr sl (lc D) (lb D) (lf D sl) (length (rf D sr)) false) c2r th u Hn Gu (@rearr_wf sl (lc D) (lb D) (length (rf D sr)) false N1 N2)) as (u' & EU & GU & AU).
  { reflexivity. }
  { intros Hu. specialize (Nel Hu). unfold lf. rewrite (@rearr_shape sl (lc D) (lb D) _ false N2). apply ne_app; [|apply NK, ne_prod, ne_permute; auto; intros d Hd; apply N2, in_or_app; auto].
    unfold side_shape. apply ne_app; [apply ne_permute; auto; intros d Hd; apply N2, in_or_app; auto|]. apply ne_app; [apply ne_permute; auto; intros d Hd; apply free_In in Hd; tauto|apply ne_ones]. }
  destruct (@index_any n (rearr sr (rc D) (rb D) (rf D sr) (length (lf D sl)) true) c2r th v Hn Gv (@rearr_wf sr (rc D) (rb D) (length (lf D sl)) true N3 N4)) as (v' & EV & GV & AV).
  { reflexivity. }
  { intros Hv. specialize (Ner Hv). unfold rf. rewrite (@rearr_shape sr (rc D) (rb D) _ true N4). apply ne_app; [|apply NK, ne_prod, ne_permute; auto; intros d Hd; apply N4, in_or_app; auto].
    unfold side_shape. apply ne_app; [apply ne_permute; auto; intros d Hd; apply N4, in_or_app; auto|]. apply ne_app; [apply ne_ones|apply ne_permute; auto; intros d Hd; apply free_In in Hd; tauto]. }
  rewrite EU, EV. cbn [bind].
  destruct (@general_path A RA n c2r th D u v u' v' (AX nd0) Hn Hne (@good_vok A RA n u Gu) (@good_vok A RA n v Gv) HD EU EV) as (SU & SV & _). fold sl sr in SU, SV. set (K := prod (permute (lc D) sl)) in *.
  rewrite SU, SV. rewrite (@bshape2_app (lpre D sl sr) (rpre D sl sr) (dot_shape D sl sr) [K] [K] [K] eq_refl (pre_b HD) (bshape2_self _)). cbn [bind].
  assert (ES : sparse_arg u && sparse_arg v = false) by (destruct u, v; cbn in H1; try discriminate; [apply andb_false_r|reflexivity]). rewrite ES, andb_false_r.
  destruct (@dotlast_good n c2r th u' v' (lpre D sl sr) (rpre D sl sr) K (dot_shape D sl sr) Hn) as (a & Ea & Ga & _); auto.
  - destruct u, v, u', v'; cbn in *; congruence.
  - apply (pre_b HD).
  - exists a. auto.
Qed.
Theorem dot_good n c2r th D args : (0 < n)%nat -> length (als args) = 1%nat -> (forall v, In v args -> goodv n v) -> dot_fits D (map aval args) -> ne (sh (o_fwd (op_dotc D) (map aval args))) ->
  returns n (op_dotc D) args (dot_prim c2r th D args).
Proof.
  intros Hn H1 HG HX NE. assert (Hne : als args <> []) by (intros X; rewrite X in H1; discriminate). pose proof HX as (x & y & E & HD). destruct args as [|u [|v [|? ?]]]; try discriminate. cbn [map] in E. injection E as E1 E2. subst x y.
  destruct (@dot_general_good n c2r th D u v Hn H1 (HG u (or_introl eq_refl)) (HG v (or_intror (or_introl eq_refl))) HD NE) as (a & Ea & Ga).
  assert (EP : dot_prim c2r th D [u; v] = Some (canon_arg (AL a))) by (cbn [dot_prim]; rewrite Ea; reflexivity).
  assert (HM : mixD D [u; v]).
  { intros HS _. exfalso. destruct u, v; cbn in H1, HS; try discriminate. rewrite andb_false_r in HS. discriminate. }
  destruct (@dot_prim_sound A RA n c2r th D [u; v] _ Hn Hne (fun w Hw => @good_vok A RA n w (HG w Hw)) HX HM EP) as (b & Eb & (O1 & O2 & _) & _).
  exists b. rewrite <- Eb. split; [exact EP|]. cbn [canon_arg] in Eb. injection Eb as <-. split; [|exact O1]. destruct Ga as (G1 & G2 & G3). split; [exact O2|]. split; [exact G2|]. exact G3.
Qed.
End S4.

Section S5.
Context {A : Type} {RA : CRing A} (ld mi : nd A -> nd A).
Notation aval := (@aval A).
Open Scope cr_scope.
(* ---- slogdet (wrapped_functions.py:194-291 with custom_hessian.py:11-53) ---- *)
Lemma jac_for_some n (a : lapl A) (o : nd Z) R : awf n a -> sh o = [R] -> (0 < R)%nat -> exists d, construct_jac_for_idx (ljac a) o = Some d.
Proof.
  intros [W _] Ho HR. pose proof W as (k & Hk & _). destruct (jidx (ljac a)) as [m|] eqn:Em.
  - destruct (@construct_sparse_spec _ _ (ljac a) m o n k _ R [] W Em Hk Ho (bto_nil _) HR) as (res & E1 & _). eauto.
  - unfold construct_jac_for_idx. rewrite (rows_cons _ Ho), Em. destruct (Nat.eqb_spec R 0); [lia|]. eauto.
Qed.
Lemma slog_good n c2r (a : lapl A) L m : (0 < n)%nat -> good n a -> sh (lx a) = L ++ [m; m] -> ext1 mi -> ne (sh (o_fwd (op_logdet ld mi) [lx a])) ->
  returns n (op_logdet ld mi) [AL a] (wrap_fl (slogdet_rule ld mi) c2r 0%Z [AL a]).
Proof.
  intros Hn HG Hs He NE. assert (HGv : forall v, In v [AL a] -> goodv n v) by (intros v [<-|[]]; exact HG). assert (Hne : als [AL a] <> []) by discriminate.
  unfold slogdet_rule. apply fn_good; auto. unfold jhj_trace.
  pose proof (@fn_setup _ _ n (op_logdet ld mi) [AL a] Hn Hne (fun v Hv => @good_vok A RA n v (HGv v Hv)) (@logdet_ext A RA ld mi (lx a) He)) as HS.
  pose proof (@fn_plan A RA n [AL a] HGv) as HP. pose proof (@good_als A RA n [AL a] HGv) as HGa.
  change (als [AL a]) with [a] in *. change (exs [AL a]) with (@nil (nd A)) in *. cbn [map Verif.Wrap.aval] in *. change (mask_of [AL a]) with [true] in *.
  refine (@vmapped_good A RA n (op_logdet ld mi) c2r 0%Z (Some (slogdet_jhj mi)) [] _ _ (merge_of [true]) 0%Z [a] HS eq_refl eq_refl HGa NE (fun _ => HP) _ _).
  - intros d Sd Xd Dd. destruct d as [|a' [|? ?]]; try discriminate Xd.
    destruct (@vmapped_custom_total A RA n (op_logdet ld mi) c2r 0%Z (slogdet_jhj mi) [] _ _ (merge_of [true]) 0%Z [a'] Sd eq_refl Dd) as (r & E1 & E2).
    + intros brd b args' es _ _ S1 S2. pose proof (@sliced_dense_la A RA n _ _ _ _ Dd S1) as HD'. destruct S1 as [L1 S1]. destruct S2 as [L2 _]. destruct es; [|discriminate]. destruct args' as [|a2 [|? ?]]; try discriminate.
      unfold slogdet_jhj, construct_jac_for. rewrite (@dense_some A RA _ (HD' a2 (or_introl eq_refl))). cbn [bind]. eexists. split; [reflexivity|]. cbn [sh reshape merged o_fwd].
      change (@merge_of [true] (nd A) (xs_of [a2]) []) with [lx a2]. reflexivity.
    + exists r. split; [exact E1|]. rewrite E2. change (@merge_of [true] (nd A) (xs_of [a']) []) with (xs_of [a']). rewrite Xd. reflexivity.
  - intros b args' es o' R S1 S2 So HR. pose proof (@sliced_good A RA n _ _ _ _ S1) as HW. destruct S1 as [L1 S1]. destruct S2 as [L2 _]. destruct es; [|discriminate]. destruct args' as [|a' [|? ?]]; try discriminate.
    destruct (@jac_for_some n a' o' R (HW a' (or_introl eq_refl)) So HR) as (dj & Ed).
    assert (HJ : exists r0, slogdet_jhj mi [a'] [] (@merge_of [true]) (Some o') = Some r0 /\ sh r0 = lead (lx a')) by (unfold slogdet_jhj, construct_jac_for; rewrite Ed; cbn [bind]; eexists; split; reflexivity).
    destruct HJ as (r0 & E0 & S0). exists r0. split; [exact E0|]. rewrite S0. reflexivity.
Qed.
End S5.
