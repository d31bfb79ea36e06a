(* Total.v : nothing fails when no Jacobian is sparse.  The soundness theorems say what a result is when there is one; here: there is one. *)
From Verif Require Export InterpScan.
Set Implicit Arguments.

Lemma sequence_total {X} (l : list (option X)) : (forall o, In o l -> exists x, o = Some x) -> exists r, sequence l = Some r.
Proof.
  induction l as [|o l IH]; intros H; cbn [sequence]; [eauto|]. destruct (H o (or_introl eq_refl)) as (x & E). rewrite E. cbn [bind].
  destruct IH as (r & E2); [intros o' Ho; apply H; right; exact Ho|]. rewrite E2. cbn. eauto.
Qed.
Lemma prod_app s t : prod (s ++ t) = prod s * prod t.
Proof. induction s as [|a s IH]; cbn [app prod fold_right]; [lia|]. unfold prod in *. cbn. rewrite IH. ring. Qed.
(* removing axes of size one does not change the number of elements *)
Lemma prod_keep (P : nat -> bool) : forall (s : shape) k, (forall i, i < length s -> P (k + i) = false -> nth i s 0 = 1) ->
  prod (map (fun i => nth (i - k) s 0) (filter P (seq k (length s)))) = prod s.
Proof.
  induction s as [|a s IH]; intros k H; [reflexivity|]. cbn [length seq filter].
  assert (E : map (fun i => nth (i - k) (a :: s) 0) (filter P (seq (S k) (length s))) = map (fun i => nth (i - S k) s 0) (filter P (seq (S k) (length s)))).
  { apply map_ext_in. intros i Hi. apply filter_In in Hi. destruct Hi as [Hi _]. apply in_seq in Hi. replace (i - k) with (S (i - S k)) by lia. reflexivity. }
  assert (IH' : prod (map (fun i => nth (i - S k) s 0) (filter P (seq (S k) (length s)))) = prod s).
  { apply IH. intros i Hi HP. apply (H (S i)); [cbn; lia|]. replace (k + S i) with (S k + i) by lia. exact HP. }
  destruct (P k) eqn:EP.
  - cbn [map]. rewrite Nat.sub_diag. change (nth 0 (a :: s) 0) with a. rewrite E. unfold prod in *. cbn [fold_right]. rewrite IH'. reflexivity.
  - rewrite E, IH'. specialize (H 0 ltac:(cbn; lia)). rewrite Nat.add_0_r in H. specialize (H EP). cbn in H. subst a. unfold prod. cbn. lia.
Qed.
Lemma prod_keep_idx leaves brd : brdcast_shape leaves = Some brd -> (forall l, In l leaves -> leaf_ok l) -> prod (permute (keep_idx leaves brd) brd) = prod brd.
Proof.
  intros HB Hok. unfold permute, keep_idx. rewrite <- (@prod_keep (fun i => existsb (fun l => is_some (nth i (vmap_sequence (fst l) brd (snd l)) None)) leaves) brd 0).
  - f_equal. apply map_ext. intros i. rewrite Nat.sub_0_r. reflexivity.
  - intros i Hi HP. apply (@brd_one _ _ i HB Hok Hi). intros H. apply filter_In in H. destruct H as [_ H]. cbn in HP. congruence.
Qed.

Section Total.
Context {A : Type} {RA : CRing A}.
Open Scope cr_scope.
Definition dense_la (a : lapl A) : Prop := jidx (ljac a) = None.
Lemma dense_weak a : dense_la a <-> weak (ljac a) = false.
Proof. unfold dense_la, weak. destruct (jidx (ljac a)); split; intros; congruence. Qed.
Lemma dense_any args : (forall a, In a args -> dense_la a) -> any_weak args = false.
Proof. intros H. unfold any_weak. destruct (existsb _ _) eqn:E; [|reflexivity]. apply existsb_exists in E. destruct E as (a & Ha & Hw). apply H in Ha. apply dense_weak in Ha. congruence. Qed.
Lemma dense_some a : dense_la a -> dense_array (ljac a) = Some (jdata (ljac a)).
Proof. intros H. unfold dense_la in H. unfold dense_array. rewrite H. reflexivity. Qed.
Lemma dense_jacs args : (forall a, In a args -> dense_la a) -> dense_jacobian args = Some (map (fun a => jdata (ljac a)) args).
Proof.
  unfold dense_jacobian. induction args as [|a l IH]; intros H; cbn [map sequence]; [reflexivity|]. rewrite (@dense_some _ (H a (or_introl eq_refl))). cbn [bind]. rewrite IH by (intros b Hb; apply H; right; exact Hb). reflexivity.
Qed.
(* ---- the first-order step ---- *)
Lemma dense_jvp_total n f args fl ax : args <> [] -> (forall a, In a args -> dense_la a) -> (forall a, In a args -> awf n a) -> exists y g l, dense_jvp f args fl ax = Some (y, g, l) /\ sh l = sh (o_fwd f (xs_of args)).
Proof.
  intros Hne HD HW.
  assert (HJ : exists y g l, (if has JOIN_JVP fl then dense_joint_jvp f args else dense_split_jvp f args) = Some (y, g, l) /\ sh l = sh (o_fwd f (xs_of args))).
  { unfold dense_joint_jvp, dense_split_jvp. rewrite (@dense_jacs _ HD). destruct (has JOIN_JVP fl); cbn [bind]; do 3 eexists; split; reflexivity. }
  unfold dense_jvp. destruct args as [|a [|b l]]; [congruence| |].
  2:{ destruct HJ as (y & g & h & E & HS). rewrite E. cbn [bind]. eauto. }
  destruct (axes_nil ax).
  2:{ destruct HJ as (y & g & h & E & HS). rewrite E. cbn [bind]. eauto. }
  assert (HE : exists y g l, dense_elementwise_jvp f a = Some (y, g, l) /\ sh l = sh (o_fwd f (xs_of [a]))).
  { unfold dense_elementwise_jvp. destruct (HW a (or_introl eq_refl)) as [(k & Hk & _) Hl]. rewrite (@dense_some _ (HD a (or_introl eq_refl))). cbn [bind].
    destruct (sheq (sh (o_fwd f [lx a])) (sh (lx a))) eqn:Es; cbn [negb]; [|unfold dense_split_jvp; rewrite (@dense_jacs _ HD); cbn [bind]; do 3 eexists; split; reflexivity].
    destruct (@bin_row_mul _ _ (vjp1 f (lx a) (ones_like (o_fwd f [lx a]))) (jdata (ljac a)) k (sh (lx a)) eq_refl Hk) as (g & Eg & _). rewrite Eg. cbn [bind].
    unfold bin. cbn [vjp1 sh]. rewrite Hl, bshape2_refl. cbn [bind]. do 3 eexists. split; [reflexivity|]. apply sheq_eq in Es. cbn [sh xs_of map]. symmetry. exact Es. }
  destruct HE as (y & g & h & E & HS). rewrite E. cbn [bind]. eauto.
Qed.
Lemma jvp_fn_total n F mg extra th fl ax args : args <> [] -> (forall a, In a args -> dense_la a) -> (forall a, In a args -> awf n a) ->
  exists y g l, jvp_fn F mg extra th fl ax args = Some (y, g, l) /\ sh l = sh (o_fwd (merged (f_op F) mg (length args) extra) (xs_of args)).
Proof.
  intros Hne HD HW. unfold jvp_fn. rewrite (@dense_any _ HD). cbn [negb orb]. unfold parallel_jvp.
  assert (E : all_weak args = false).
  { destruct args as [|a l]; [congruence|]. unfold all_weak. cbn [forallb]. assert (Ea : weak (ljac a) = false) by (apply dense_weak, HD; left; reflexivity). rewrite Ea. reflexivity. }
  rewrite E. cbn [negb]. apply (@dense_jvp_total n); auto.
Qed.

(* ---- the second-order term ---- *)
Lemma reduced_total args : (forall a, In a args -> dense_la a) -> exists g, get_reduced_jacobians (map (@ljac A) args) None = Some g.
Proof.
  intros HD. unfold get_reduced_jacobians. rewrite map_map. pose proof (@dense_jacs _ HD) as E. unfold dense_jacobian in E. rewrite E. cbn [bind]. eauto.
Qed.
Lemma args_dense_total args : (forall a, In a args -> dense_la a) -> args_dense args = Some args.
Proof.
  intros H. unfold args_dense. induction args as [|a l IH]; [reflexivity|]. cbn [map sequence].
  assert (E : lapl_dense a = Some a).
  { pose proof (H a (or_introl eq_refl)) as D. unfold lapl_dense, as_dense. rewrite (@dense_some _ D). cbn [bind]. unfold dense_la in D. destruct a as [x [d i] l0]. cbn in *. rewrite D. reflexivity. }
  rewrite E. cbn [bind]. rewrite IH by (intros b Hb; apply H; right; exact Hb). reflexivity.
Qed.
Lemma sliced_dense_la n args axs b args' : (forall a, In a args -> dense_la a) -> sliced n args axs b args' -> forall a, In a args' -> dense_la a.
Proof.
  intros HD [L H] a Ha. apply (In_nth _ _ la0) in Ha. destruct Ha as (k & Hk & <-). rewrite L in Hk. destruct (H k Hk) as (_ & _ & E & _). apply dense_weak. rewrite E. apply dense_weak. apply HD, nth_In. exact Hk.
Qed.
Theorem batched_total n f c2r fl cu mg dense_out args axs extra eaxs : setup n f mg args axs extra eaxs ->
  (forall brd b args' es, brdcast_shape (leaves_of args axs extra eaxs) = Some brd -> inb b brd -> sliced n args axs b args' -> mslices eaxs extra b es ->
     exists r0, hess_transform f c2r fl cu mg dense_out args' es None = Some r0 /\ prod (sh r0) = prod (sh (o_fwd (merged f mg (length args) es) (xs_of args')))) ->
  let so := sh (o_fwd f (mg _ (xs_of args) extra)) in
  exists r, (let* r := batched_eval f c2r fl cu mg dense_out args axs extra eaxs None in if Nat.eqb (prod (sh r)) (prod so) then Some (reshape so r) else None) = Some r /\ sh r = so.
Proof.
  intros [H1 H2 H3 H4 H5 H6 H7] Hloc so. pose proof H5 as [La _]. pose proof H6 as [Le _]. rewrite xs_length in La.
  destruct (@batched_brd _ _ f mg args axs extra eaxs H4 La Le H7) as (brd & Hbrd).
  destruct (@merged_batched _ _ f mg args axs extra eaxs brd H4 La Le H7 Hbrd) as (C & HC & HCs). cbn zeta in HC, HCs. cbn [merged o_fwd] in HC.
  pose proof (@leaves_ok _ _ args axs extra eaxs H5 H6) as Hok.
  set (ki := keep_idx (leaves_of args axs extra eaxs) brd). assert (Hpk : prod (permute ki brd) = prod brd) by (apply prod_keep_idx; auto).
  assert (Hone : forall k, (k < length brd)%nat -> ~ In k ki -> nth k brd 0%nat = 1%nat) by (intros k Hk Hn; apply (@brd_one _ _ k Hbrd Hok Hk Hn)).
  set (sa := fun b => map2 (fun a ax => slice_lapl (leaf_seq (leaves_of args axs extra eaxs) brd (sh (lx a), ax))
        (map (fun i => nth i (vmap_sequence (sh (jdata (ljac a))) brd (jac_axes ax)) None) ki) ax b a) args axs).
  set (se := fun b => map2 (fun e ax => slice_seq (leaf_seq (leaves_of args axs extra eaxs) brd (sh e, ax)) b (squeeze ax e)) extra eaxs).
  assert (Hat : forall b, inb b (permute ki brd) -> exists r0, hess_transform f c2r fl cu mg dense_out (sa b) (se b) None = Some r0 /\ prod (sh r0) = prod C).
  { intros b0 Hb0. destruct (@bexp_spec brd ki (keep_idx_filter _ _) Hone b0 Hb0) as [B1 B2]. set (b := bexp ki (length brd) b0) in *.
    assert (S1 : sliced n args axs b (sa b0)).
    { rewrite <- B2. split; [apply map2_len; lia|]. intros a Ha. unfold sa. rewrite map2_nth with (dx := la0) (dy := []) by lia.
      apply slice_lapl_of; auto; [apply leaves_arg; auto|apply Hok, leaves_arg; auto|apply H3, nth_In; auto]. }
    assert (S2 : mslices eaxs extra b (se b0)).
    { rewrite <- B2. split; [apply map2_len; lia|]. split; [auto|]. intros a Ha. unfold se. rewrite map2_nth with (dx := nd0) (dy := []) by lia.
      apply eqa_sym, eql_eqa, leaf_slice; auto; [apply leaves_extra; auto|apply Hok, leaves_extra; auto]. }
    destruct (Hloc brd b (sa b0) (se b0) Hbrd B1 S1 S2) as (r0 & E1 & E2). exists r0. split; [exact E1|]. rewrite E2.
    destruct (HCs b (xs_of (sa b0)) (se b0) B1 (@sliced_mslices _ _ n args axs b _ La S1) S2) as [E3 _]. rewrite E3. reflexivity. }
  unfold batched_eval. rewrite Hbrd. cbn [bind option_map]. fold ki. fold (sa). 
  match goal with |- context [map ?F (allix (permute ki brd))] => set (at_b := F) end.
  assert (Hab : forall b, inb b (permute ki brd) -> exists r0, at_b b = Some r0 /\ prod (sh r0) = prod C) by (intros b Hb; exact (Hat b Hb)).
  destruct (@sequence_total _ (map at_b (allix (permute ki brd)))) as (rs & Ers).
  { intros o Ho. apply in_map_iff in Ho. destruct Ho as (b & <- & Hb). apply allix_spec in Hb. destruct (Hab b Hb) as (r0 & E & _). eauto. }
  rewrite Ers. cbn [bind sh].
  assert (EP : prod (permute ki brd ++ sh (hd nd0 rs)) = prod so).
  { unfold so. rewrite HC, !prod_app, Hpk. destruct (Nat.eq_dec (prod brd) 0) as [E0|E0]; [rewrite E0; reflexivity|]. f_equal.
    destruct (sequence_spec _ Ers) as [Ls Hs]. rewrite map_length in Ls, Hs.
    assert (Hpos : (0 < length (allix (permute ki brd)))%nat) by (rewrite allix_length, Hpk; lia).
    specialize (Hs 0%nat nd0 None Hpos). rewrite nth_map_in with (dx := ([] : ix)) in Hs by exact Hpos.
    assert (Hb : inb (nth 0 (allix (permute ki brd)) []) (permute ki brd)) by (apply allix_spec, nth_In; exact Hpos).
    destruct (Hab _ Hb) as (r0 & E1 & E2). rewrite E1 in Hs. injection Hs as Hs. destruct rs as [|r1 rs']; [cbn in Ls; lia|]. cbn [hd nth] in *. congruence. }
  rewrite EP, Nat.eqb_refl. eexists. split; reflexivity.
Qed.
Lemma general_loc_total f c2r args : (forall a, In a args -> dense_la a) -> exists r0, general_jhj f c2r args None = Some r0 /\ sh r0 = sh (o_fwd f (xs_of args)).
Proof. intros HD. unfold general_jhj. destruct (@reduced_total _ HD) as (g & E). rewrite E. cbn [bind]. eauto. Qed.
Lemma dot_loc_total n f args : (0 < n)%nat -> (forall a, In a args -> awf n a) -> (forall a, In a args -> dense_la a) -> is_dot f (xs_of args) -> prod (sh (o_fwd f (xs_of args))) = 1%nat ->
  exists r0, dot_jhj f args None = Some r0 /\ sh r0 = sh (o_fwd f (xs_of args)).
Proof.
  intros Hn Hw HD Hd HP. pose proof Hd as (L2 & Hs & _). rewrite xs_length in L2. destruct args as [|a [|b [|? ?]]]; try discriminate. clear L2.
  destruct (@reduced_total _ HD) as (g & E). destruct (@red_none _ _ n [a; b] g Hn ltac:(discriminate) Hw E) as (R & _ & Hok & _).
  unfold dot_jhj, trace_jac_jacT. cbn [map] in E. rewrite E. cbn [bind]. pose proof Hok as [Lg _]. destruct g as [|x [|y [|? ?]]]; try discriminate Lg.
  cbn [xs_of map nth] in Hs. cbn [xs_of map] in Hok. rewrite <- Hs in Hok. rewrite (einsum2_red Hok). cbn [bind]. rewrite HP. cbn [Nat.eqb]. eauto.
Qed.
Lemma idx_none fl : (if has SPARSE_JHJ fl then @None (nd Z) else None) = None.
Proof. destruct (has SPARSE_JHJ fl); reflexivity. Qed.
(* the second-order term of a function without derivatives stored sparsely *)
Lemma vmapped_dense_eq f c2r fl cu extra axs eaxs (mg : mergefn) th args : (forall a, In a args -> dense_la a) ->
  let so := sh (o_fwd f (mg _ (xs_of args) extra)) in
  vmapped_jhj f c2r fl cu extra axs eaxs mg th args =
  (let* r := batched_eval f c2r fl cu mg true args (if has DOT_PRODUCT fl && forallb (fun a => Nat.eqb (length a) 1) axs then map (fun a => [(ndim (lx a) - 1)%nat]) args else axs) extra eaxs None in
   if Nat.eqb (prod (sh r)) (prod so) then Some (reshape so r) else None).
Proof.
  intros HD so. unfold vmapped_jhj, find_out_idx. rewrite (@dense_any _ HD). cbn [negb bind andb]. fold so. rewrite (@args_dense_total _ HD). cbn [bind]. destruct (has SPARSE_JHJ fl); reflexivity.
Qed.
Theorem vmapped_general_total n f c2r fl extra axs eaxs mg th args : setup n f mg args axs extra eaxs -> has LINEAR_IN_ONE fl = false -> (forall a, In a args -> dense_la a) ->
  exists r, vmapped_jhj f c2r fl None extra axs eaxs mg th args = Some r /\ sh r = sh (o_fwd f (mg _ (xs_of args) extra)).
Proof.
  intros HS HL HD. assert (HM : has MULTIPLICATION fl = false) by (destruct (has MULTIPLICATION fl) eqn:E; auto; apply has_mult_one in E; congruence).
  rewrite vmapped_dense_eq by exact HD. rewrite (has_dot_mult _ HM). cbn [andb]. apply (@batched_total n); [exact HS|].
  intros brd b args' es _ _ S1 _. unfold hess_transform. rewrite HM, HL, idx_none. destruct (@general_loc_total (merged f mg (length args') es) c2r _ (@sliced_dense_la n args axs b args' HD S1)) as (r0 & E1 & E2).
  rewrite E1. exists r0. split; [reflexivity|]. rewrite E2. rewrite (proj1 S1). reflexivity.
Qed.
Theorem vmapped_dot_total n f c2r fl extra axs eaxs mg th args : setup n f mg args axs extra eaxs -> has MULTIPLICATION fl = true -> dot_core f mg axs (xs_of args) (length extra) ->
  (forall ys es, length ys = length args -> length es = length extra -> (forall a, (a < length args)%nat -> sh (nth a ys nd0) = permute (sax (ndim (lx (nth a args la0))) (nth a axs [])) (sh (lx (nth a args la0)))) -> prod (sh (o_fwd (merged f mg (length args) es) ys)) = 1%nat) ->
  (has DOT_PRODUCT fl && forallb (fun a => Nat.eqb (length a) 1) axs = true -> axs = map (fun a => [(ndim (lx a) - 1)%nat]) args) ->
  (forall a, In a args -> dense_la a) ->
  exists r, vmapped_jhj f c2r fl None extra axs eaxs mg th args = Some r /\ sh r = sh (o_fwd f (mg _ (xs_of args) extra)).
Proof.
  intros HS HM HC HP HDL HD. rewrite vmapped_dense_eq by exact HD.
  replace (if has DOT_PRODUCT fl && forallb (fun a => Nat.eqb (length a) 1) axs then map (fun a => [(ndim (lx a) - 1)%nat]) args else axs) with axs by (destruct (_ && _); [apply HDL; reflexivity|reflexivity]).
  apply (@batched_total n); [exact HS|]. pose proof HS as [H1 H2 H3 H4 H5 H6 H7]. pose proof H5 as [La _]. rewrite xs_length in La.
  intros brd b args' es _ Hb S1 S2. unfold hess_transform. rewrite HM, idx_none.
  assert (Hd : is_dot (merged f mg (length args) es) (xs_of args')) by (eapply (@core_dot _ _ n f mg args axs extra eaxs b); eauto).
  rewrite (proj1 S1). destruct (@dot_loc_total n (merged f mg (length args) es) args' H1 (@sliced_awf _ _ n args axs b args' S1) (@sliced_dense_la n args axs b args' HD S1) Hd) as (r0 & E1 & E2).
  - apply HP; [rewrite xs_length; apply S1|apply (proj1 S2)|]. intros a Ha. destruct S1 as [L1 S1]. rewrite xs_nth by lia. destruct (S1 a Ha) as ((E & _) & _). rewrite <- E. reflexivity.
  - exists r0. rewrite E1, E2. split; reflexivity.
Qed.
Theorem vmapped_custom_total n f c2r fl cu extra axs eaxs mg th args : setup n f mg args axs extra eaxs -> has DOT_PRODUCT fl = false -> (forall a, In a args -> dense_la a) ->
  (forall brd b args' es, brdcast_shape (leaves_of args axs extra eaxs) = Some brd -> inb b brd -> sliced n args axs b args' -> mslices eaxs extra b es ->
     exists r0, cu args' es mg None = Some r0 /\ prod (sh r0) = prod (sh (o_fwd (merged f mg (length args) es) (xs_of args')))) ->
  exists r, vmapped_jhj f c2r fl (Some cu) extra axs eaxs mg th args = Some r /\ sh r = sh (o_fwd f (mg _ (xs_of args) extra)).
Proof.
  intros HS HF HD HX. rewrite vmapped_dense_eq by exact HD. rewrite HF. cbn [andb]. apply (@batched_total n); [exact HS|].
  intros brd b args' es B1 B2 S1 S2. unfold hess_transform. rewrite idx_none. eauto.
Qed.

(* ---- the wrapper ---- *)
Lemma als_dense n args : (forall v, In v args -> vok n v) -> Forall (@dense_arg A) args -> (forall a, In a (als args) -> dense_la a) /\ forall a, In a (als args) -> awf n a.
Proof.
  intros HV HD. split; intros a Ha; [|apply (@vok_als _ _ n args HV a Ha)]. apply In_als in Ha. rewrite Forall_forall in HD. specialize (HD _ Ha). cbn in HD. apply dense_weak. exact HD.
Qed.
Lemma wrap_total n (Q : rule A) c2r th args axs eaxs : (forall v, In v args -> vok n v) -> Forall (@dense_arg A) args ->
  sequence (map (fun a => canon_axes (ndim (lx a)) (r_axes Q)) (als args)) = Some axs ->
  sequence (map (fun x => canon_axes (ndim x) (r_axes Q)) (exs args)) = Some eaxs ->
  (als args <> [] -> exists h, jhj_trace (f_op (r_fn Q)) c2r (r_fl Q) (r_custom Q) (exs args) axs eaxs (merge_of (mask_of args)) th (als args) = Some h /\ bto (sh h) (sh (o_fwd (f_op (r_fn Q)) (map (@aval A) args)))) ->
  exists r, wrap_fl Q c2r th args = Some r.
Proof.
  intros HV HD Ea Ee HH. destruct (@als_dense n args HV HD) as [D1 D2]. unfold wrap_fl. rewrite Ea, Ee. cbn [bind].
  destruct (als args) as [|a l] eqn:El; [eauto|]. rewrite <- El in *. assert (Hne : als args <> []) by (rewrite El; discriminate).
  destruct (@jvp_fn_total n (r_fn Q) (merge_of (mask_of args)) (exs args) th (r_fl Q) (r_axes Q) (als args) Hne D1 D2) as (y & g & l2 & E1 & E2). rewrite E1. cbn [bind].
  destruct (HH Hne) as (h & E3 & E4). rewrite E3. cbn [bind]. rewrite merged_fwd in E2. destruct (@bin_bto _ _ l2 h _ E2 E4) as (t & Et & _). rewrite Et. cbn [bind]. eauto.
Qed.
(* linear functions: no second-order term *)
Lemma linear_total n (Q : rule A) c2r th args axs eaxs : (forall v, In v args -> vok n v) -> Forall (@dense_arg A) args ->
  sequence (map (fun a => canon_axes (ndim (lx a)) (r_axes Q)) (als args)) = Some axs ->
  sequence (map (fun x => canon_axes (ndim x) (r_axes Q)) (exs args)) = Some eaxs ->
  has LINEAR (r_fl Q) = true -> exists r, wrap_fl Q c2r th args = Some r.
Proof.
  intros HV HD Ea Ee HL. apply (@wrap_total n Q c2r th args axs eaxs); auto. intros _. exists nd0. split; [unfold jhj_trace; rewrite HL; reflexivity|apply bto_nil].
Qed.
Lemma ew_linear_total n phi d h fl cu c2r th args : (forall v, In v args -> vok n v) -> Forall (@dense_arg A) args -> has LINEAR fl = true ->
  exists r, wrap_fl (ew_rule phi d h fl cu) c2r th args = Some r.
Proof. intros HV HD HL. apply (@linear_total n (ew_rule phi d h fl cu) c2r th args _ _ HV HD (canon_nil _ _) (canon_nil _ _) HL). Qed.
Lemma fn_linear_total n F fl cu c2r th args : (forall v, In v args -> vok n v) -> Forall (@dense_arg A) args -> has LINEAR fl = true ->
  exists r, wrap_fl (fn_rule F fl cu) c2r th args = Some r.
Proof. intros HV HD HL. apply (@linear_total n (fn_rule F fl cu) c2r th args _ _ HV HD (canon_none _ _) (canon_none _ _) HL). Qed.
Lemma trace_vmapped f c2r cu extra axs eaxs (mg : mergefn) th args r so : vmapped_jhj f c2r 0%Z cu extra axs eaxs mg th args = Some r /\ sh r = so -> exists h, jhj_trace f c2r 0%Z cu extra axs eaxs mg th args = Some h /\ bto (sh h) so.
Proof. intros [E1 E2]. exists r. split; [exact E1|]. rewrite E2. apply bto_refl. Qed.
Lemma ew_general_total n phi d h c2r th args : (0 < n)%nat -> (forall v, In v args -> vok n v) -> Forall (@dense_arg A) args -> bshapes (map (@sh A) (map (@aval A) args)) <> None ->
  exists r, wrap_fl (ew_rule phi d h 0%Z None) c2r th args = Some r.
Proof.
  intros Hn HV HD HB. apply (@wrap_total n (ew_rule phi d h 0%Z None) c2r th args _ _ HV HD (canon_nil _ _) (canon_nil _ _)). intros Hne. cbn [r_fn ew_rule f_op r_fl r_custom].
  destruct (@vmapped_general_total n (ew_op phi d h) c2r 0%Z (exs args) _ _ _ th (als args) (@ew_setup _ _ phi d h n args Hn Hne HV HB) eq_refl (proj1 (@als_dense n args HV HD))) as (r & HR). rewrite merge_avals in HR. apply (@trace_vmapped _ _ _ _ _ _ _ _ _ _ _ HR).
Qed.
Lemma general_fn_total n f c2r th args : (0 < n)%nat -> (forall v, In v args -> vok n v) -> Forall (@dense_arg A) args -> op_ext f (map (@aval A) args) ->
  exists r, wrap_fl (fn_rule (Fn f None None) 0%Z None) c2r th args = Some r.
Proof.
  intros Hn HV HD HE. apply (@wrap_total n (fn_rule (Fn f None None) 0%Z None) c2r th args _ _ HV HD (canon_none _ _) (canon_none _ _)). intros Hne. cbn [r_fn fn_rule f_op r_fl r_custom].
  destruct (@vmapped_general_total n f c2r 0%Z (exs args) _ _ _ th (als args) (@fn_setup _ _ n f args Hn Hne HV HE) eq_refl (proj1 (@als_dense n args HV HD))) as (r & HR). rewrite merge_avals in HR. apply (@trace_vmapped _ _ _ _ _ _ _ _ _ _ _ HR).
Qed.
Lemma red_total n f axes c2r th args : (0 < n)%nat -> (forall v, In v args -> vok n v) -> Forall (@dense_arg A) args -> op_ext f (map (@aval A) args) ->
  exists r, wrap_fl (red_rule f axes REDUCTION) c2r th args = Some r.
Proof.
  intros Hn HV HD HE. apply (@wrap_total n (red_rule f axes REDUCTION) c2r th args _ _ HV HD (canon_none _ _) (canon_none _ _)). intros Hne. cbn [r_fn red_rule fn_rule f_op r_fl r_custom].
  destruct (@vmapped_general_total n f c2r REDUCTION (exs args) _ _ _ th (als args) (@fn_setup _ _ n f args Hn Hne HV HE) eq_refl (proj1 (@als_dense n args HV HD))) as (r & HR). rewrite merge_avals in HR.
  destruct HR as [E1 E2]. exists r. split; [exact E1|]. rewrite E2. apply bto_refl.
Qed.
Lemma mul_total n c2r th u v : (0 < n)%nat -> vok n u -> vok n v -> Forall (@dense_arg A) [u; v] -> bshapes [sh (aval u); sh (aval v)] <> None ->
  exists r, wrap_fl mul_rule c2r th [u; v] = Some r.
Proof.
  intros Hn Hu Hv HD HB. assert (HV : forall w, In w [u; v] -> vok n w) by (intros w [<-|[<-|[]]]; auto).
  apply (@wrap_total n mul_rule c2r th [u; v] _ _ HV HD (canon_nil _ _) (canon_nil _ _)). intros Hne. cbn [r_fn mul_rule f_op r_fl r_custom].
  destruct (Nat.eq_dec (length (als [u; v])) 1) as [E|E].
  { exists nd0. split; [|apply bto_nil]. unfold jhj_trace. rewrite E. reflexivity. }
  assert (Hb : exists a b, u = AL a /\ v = AL b).
  { destruct u as [a|x], v as [b|y]; cbn in E, Hne; try congruence; eauto. }
  destruct Hb as (a & b & -> & ->). cbn [als exs mask_of flat_map app map is_al length] in *. clear E Hne.
  pose proof (@ew_setup _ _ (fun v0 : list A => nth 0 v0 0 * nth 1 v0 0) (fun v0 a => match a with O => nth 1%nat v0 0 | S O => nth 0%nat v0 0 | _ => 0 end) (fun _ a b => match a, b with O, S O => 1 | S O, O => 1 | _, _ => 0 end) n [AL a; AL b] Hn ltac:(discriminate) HV HB) as HS. fold (@op_mul A RA) in HS.
  cbn [als exs mask_of flat_map app map is_al length] in HS.
  destruct (@vmapped_dot_total n op_mul c2r MULTIPLICATION [] [[]; []] [] mgtt th [a; b] HS eq_refl (@mul_dot_core A RA mgtt (lx a) (lx b) (merge_of_ok [true; true]))) as (r & E1 & E2).
  - intros ys es Ly Le Hsh. destruct ys as [|y0 [|y1 [|? ?]]]; try discriminate. destruct es; [|discriminate].
    assert (Z0 : sh y0 = []) by (specialize (Hsh 0%nat ltac:(cbn; lia)); cbn [nth] in Hsh; rewrite Hsh, sax_nil; reflexivity).
    assert (Z1 : sh y1 = []) by (specialize (Hsh 1%nat ltac:(cbn; lia)); cbn [nth] in Hsh; rewrite Hsh, sax_nil; reflexivity).
    cbn. unfold ew_shape. cbn [map]. rewrite Z0, Z1. reflexivity.
  - intros X. discriminate X.
  - intros z [<-|[<-|[]]]; apply dense_weak; inversion HD as [|? ? D1 D2]; subst; [exact D1|inversion D2; subst; assumption].
  - exists r. split; [exact E1|]. rewrite E2. apply bto_refl.
Qed.
Section DivT.
Context (inv : A -> A).
Lemma div_total n c2r th u v : (0 < n)%nat -> vok n u -> vok n v -> Forall (@dense_arg A) [u; v] -> bshapes [sh (aval u); sh (aval v)] <> None ->
  exists r, wrap_fl (div_rule inv) c2r th [u; v] = Some r.
Proof.
  intros Hn Hu Hv HD HB. assert (HV : forall w, In w [u; v] -> vok n w) by (intros w [<-|[<-|[]]]; auto).
  apply (@wrap_total n (div_rule inv) c2r th [u; v] _ _ HV HD (canon_nil _ _) (canon_nil _ _)). intros Hne. cbn [r_fn div_rule f_op r_fl r_custom].
  pose proof (proj1 (@als_dense n [u; v] HV HD)) as HDA.
  assert (HS : setup n (op_div inv) (merge_of (mask_of [u; v])) (als [u; v]) (map (fun _ => []) (als [u; v])) (exs [u; v]) (map (fun _ => []) (exs [u; v]))) by (apply ew_setup; auto).
  destruct u as [a|x], v as [b|y]; cbn [als exs mask_of flat_map app map is_al length] in *.
  - destruct (@vmapped_custom_total n (op_div inv) c2r LINEAR_IN_FIRST (div_jhj inv) [] [[]; []] [] mgtt th [a; b] HS eq_refl HDA) as (r & E1 & E2).
    2:{ exists r. split; [exact E1|]. rewrite E2. apply bto_refl. }
    intros brd bi args' es _ _ S1 S2. pose proof (@sliced_dense_la n _ _ _ _ HDA S1) as HD'. pose proof (@sliced_awf _ _ n _ _ _ _ S1) as HW'.
    destruct S1 as [L1 S1]. destruct S2 as [L2 _]. destruct es; [|discriminate]. destruct args' as [|a' [|b' [|? ?]]]; try discriminate.
    assert (Sa : sh (lx a') = []) by (destruct (S1 0%nat ltac:(cbn; lia)) as ((E & _) & _); cbn [nth] in E; rewrite <- E; cbn [bslice sh]; rewrite sax_nil; reflexivity).
    assert (Sb : sh (lx b') = []) by (destruct (S1 1%nat ltac:(cbn; lia)) as ((E & _) & _); cbn [nth] in E; rewrite <- E; cbn [bslice sh]; rewrite sax_nil; reflexivity).
    destruct (@reduced_total _ HD') as (g & EG). destruct (@red_none _ _ n [a'; b'] g Hn ltac:(discriminate) HW' EG) as (R & _ & (RL & RS) & _).
    destruct g as [|L [|Rg [|? ?]]]; try discriminate RL. destruct (RS 0%nat ltac:(cbn; lia)) as [S0 _]. destruct (RS 1%nat ltac:(cbn; lia)) as [S1' _]. cbn [nth xs_of map] in S0, S1'. rewrite Sa in S0. rewrite Sb in S1'.
    unfold div_jhj. match goal with |- context [match ?m with [] => None | _ => _ end] => replace m with [lx a'; lx b'] by reflexivity end. rewrite Sa, Sb. cbn [sheq list_eq_dec list_rec list_rect andb negb]. cbn [map] in EG. rewrite EG. cbn [bind].
    unfold matmul. cbn [transpose sh]. rewrite S0, S1'. cbn [permute map nth]. rewrite Nat.eqb_refl. cbn [bind].
    eexists. split; [reflexivity|]. cbn [sh merged o_fwd]. change (@mgtt (nd A) (xs_of [a'; b']) []) with [lx a'; lx b']. cbn [op_div ew_op o_fwd sh]. unfold ew_shape. cbn [map]. rewrite Sa, Sb. reflexivity.
  - exists nd0. split; [reflexivity|apply bto_nil].
  - destruct (@vmapped_custom_total n (op_div inv) c2r LINEAR_IN_FIRST (div_jhj inv) [x] [[]] [[]] mgft th [b] HS eq_refl HDA) as (r & E1 & E2).
    2:{ exists r. split; [exact E1|]. rewrite E2. apply bto_refl. }
    intros brd bi args' es _ _ S1 S2. pose proof (@sliced_dense_la n _ _ _ _ HDA S1) as HD'. pose proof (@sliced_awf _ _ n _ _ _ _ S1) as HW'.
    destruct S1 as [L1 S1]. destruct S2 as (L2 & _ & S2). destruct es as [|ex [|? ?]]; try discriminate. destruct args' as [|b' [|? ?]]; try discriminate.
    assert (Sb : sh (lx b') = []) by (destruct (S1 0%nat ltac:(cbn; lia)) as ((E & _) & _); cbn [nth] in E; rewrite <- E; cbn [bslice sh]; rewrite sax_nil; reflexivity).
    assert (Se : sh ex = []) by (destruct (S2 0%nat ltac:(cbn; lia)) as (E & _); cbn [nth] in E; rewrite <- E; cbn [bslice sh]; rewrite sax_nil; reflexivity).
    assert (HD2 : forall z, In z [b'; b'] -> dense_la z) by (intros z [<-|[<-|[]]]; apply HD'; left; reflexivity).
    assert (HW2 : forall z, In z [b'; b'] -> awf n z) by (intros z [<-|[<-|[]]]; apply HW'; left; reflexivity).
    destruct (@reduced_total _ HD2) as (g & EG). destruct (@red_none _ _ n [b'; b'] g Hn ltac:(discriminate) HW2 EG) as (R & _ & Hok & _). pose proof Hok as [RL _].
    destruct g as [|L [|Rg [|? ?]]]; try discriminate RL. cbn [xs_of map] in Hok.
    unfold div_jhj. match goal with |- context [match ?m with [] => None | _ => _ end] => replace m with [ex; lx b'] by reflexivity end. rewrite Se, Sb. cbn [sheq list_eq_dec list_rec list_rect andb negb]. unfold trace_jac_jacT. cbn [map] in EG. rewrite EG. cbn [bind]. rewrite (einsum2_red Hok). cbn [bind].
    eexists. split; [reflexivity|]. cbn [sh merged o_fwd length]. change (@mgft (nd A) (xs_of [b']) [ex]) with [ex; lx b']. cbn [op_div ew_op o_fwd sh]. unfold ew_shape. cbn [map]. rewrite Se, Sb. reflexivity.
  - exfalso. apply Hne. reflexivity.
Qed.
End DivT.
End Total.
