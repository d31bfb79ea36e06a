(* TightCalc.v : programs whose indexing is static keep the mixtures of sparse and dense Jacobians exact, for every sparsity threshold. *)
From Coq Require Import Reals Lra QArith.
From Coquelicot Require Import Coquelicot.
From Verif Require Export TotalCalc TightRows.
Set Implicit Arguments.
Open Scope nat_scope.

Section W.
Context {A : Type} {RA : CRing A}.
Notation aval := (@aval A).
Context (n : nat) (Hn : 0 < n) (c : bool) (th : Z).
Notation tight := (tight th).
Lemma one_vok (a : arg A) : vok n a -> forall u, In u [a] -> vok n u. Proof. intros H u [<-|[]]. exact H. Qed.
Lemma two_vok (a b : arg A) : vok n a -> vok n b -> forall u, In u [a; b] -> vok n u. Proof. intros H1 H2 u [<-|[<-|[]]]; assumption. Qed.
Lemma ew_tight phi d h fl cu fo xs v : (forall u, In u xs -> vok n u) -> Forall tight xs -> bshapes (map (@sh A) (map aval xs)) <> None -> has INDEXING fl = false ->
  wrap_fl (Rule (Fn (ew_op phi d h) None None) fl (Some []) cu fo) c th xs = Some v -> tight v.
Proof.
  intros Hv Ht HB Hf H. refine (@wrap_tight _ _ n _ c th xs v Hn Hv Ht _ _ H); cbn [r_fn r_fl r_axes f_op f_kwaxes f_iop].
  - intros a Ha. unfold struct_at. cbn [axes_of]. apply merged_ew_at; auto.
  - intros E. congruence.
Qed.
Lemma fn_tight f fl cu fo xs v : (forall u, In u xs -> vok n u) -> Forall tight xs -> has INDEXING fl = false -> has SUMMATION fl = false ->
  wrap_fl (Rule (Fn f None None) fl None cu fo) c th xs = Some v -> tight v.
Proof.
  intros Hv Ht Hf Hs H. refine (@wrap_tight _ _ n _ c th xs v Hn Hv Ht _ _ H); cbn [r_fn r_fl r_axes f_op f_kwaxes f_iop].
  - intros a Ha. apply struct_full. exact Hs.
  - intros E. congruence.
Qed.
Lemma index_rule_tight g ok filled xs v : (forall u, In u xs -> vok n u) -> Forall tight xs -> ok = true -> (filled = true \/ length xs = 1%nat) ->
  wrap_fl (index_rule g ok filled) c th xs = Some v -> tight v.
Proof.
  intros Hv Ht Ho Hf H. destruct (als xs) as [|a0 la] eqn:Ea.
  - unfold wrap_fl in H. rewrite Ea in H. destruct (sequence _); [|discriminate]. cbn [bind] in H. destruct (sequence _); [|discriminate]. cbn [bind] in H. injection H as <-. exact I.
  - refine (@wrap_tight _ _ n _ c th xs v Hn Hv Ht _ _ H).
    + intros a Ha. apply struct_full. reflexivity.
    + intros _. cbn [r_fn index_rule fn_rule f_iop]. split; [exact Ho|]. destruct Hf as [Hf|Hf]; [left; exact Hf|right].
      destruct xs as [|[b|x] [|? ?]]; try discriminate. intros p _. cbn. destruct (fst (i_src g p)) as [|[|k]]; cbn; lia.
Qed.
Lemma red_tight f axes fl a v : vok n (AL a) -> tight (AL a) -> NoDup axes -> (forall d, In d axes -> d < ndim (lx a)) -> axes <> [] -> has INDEXING fl = false ->
  (if has SUMMATION fl then is_sum f (lx a) axes else reduces f (lx a) axes) -> wrap_fl (red_rule f (map Z.of_nat axes) fl) c th [AL a] = Some v -> tight v.
Proof.
  intros Hv Ht H1 H2 Hne Hf HS H. refine (@wrap_tight _ _ n _ c th [AL a] v Hn (@one_vok _ Hv) _ _ _ H); [constructor; [exact Ht|constructor]| |cbn [r_fl red_rule fn_rule]; intros E; congruence].
  intros b Hb. cbn in Hb. assert (b = 0%nat) by lia. subst b. cbn [r_fn r_fl r_axes red_rule fn_rule f_op f_kwaxes].
  apply (@red_struct _ _ f a (map Z.of_nat axes) fl); [intros E; apply map_eq_nil in E; auto|split; rewrite norm_nat; assumption|rewrite norm_nat; exact HS].
Qed.
Lemma sum_any_tight ax a v : vok n (AL a) -> tight (AL a) -> NoDup ax -> (forall d, In d ax -> d < ndim (lx a)) ->
  wrap_fl (sum_rule (map Z.of_nat ax) ax) c th [AL a] = Some v -> tight v.
Proof.
  intros Hv Ht H1 H2 H. destruct ax as [|d0 ax'].
  - refine (@wrap_tight _ _ n _ c th [AL a] v Hn (@one_vok _ Hv) _ _ _ H); [constructor; [exact Ht|constructor]| |intros E; discriminate E].
    intros b Hb. cbn in Hb. assert (b = 0%nat) by lia. subst b. cbn [r_fn r_fl r_axes sum_rule red_rule fn_rule f_op f_kwaxes map].
    unfold struct_at. cbn [axes_of nth xs_of map als flat_map app length mask_of exs]. unfold elementwise_at. cbn [nth].
    assert (EP : forall q, length q = ndim (lx a) -> permute (keep_pos (ndim (lx a)) []) q = q) by (intros q Hq; rewrite keep_pos_nil, <- Hq; apply permute_id).
    assert (ES : sh (o_fwd (merged (op_sum (A:=A) []) (merge_of [true]) 1 []) [lx a]) = sh (lx a)).
    { change (permute (keep_pos (ndim (lx a)) []) (sh (lx a)) = sh (lx a)). apply EP. reflexivity. }
    split; [unfold mask_of; cbn [map is_al]; rewrite ES; apply bto_refl|]. intros p q Hp Hq Hx. unfold mask_of in Hp, Hx. cbn [map is_al] in Hp. rewrite ES in Hp.
    change ((if ixeqb (permute (keep_pos (ndim (lx a)) []) q) p then r1 else r0) = r0). rewrite EP by (apply inb_length; exact Hq). rewrite ixeqb_neq; auto. intros ->. apply Hx. rewrite bproj_same; auto.
  - apply (@red_tight (op_sum (d0 :: ax')) (d0 :: ax') SUMMATION a v); auto; [discriminate|]. apply sum_is_sum.
Qed.
Lemma dotlast_tight u v r px py K : vok n u -> vok n v -> tight u -> tight v -> sh (aval u) = px ++ [K] -> sh (aval v) = py ++ [K] ->
  wrap_fl dotlast_rule c th [u; v] = Some r -> tight r.
Proof.
  intros Hu Hv Tu Tv Eu Ev H.
  assert (Nu : 0 < ndim (aval u)) by (unfold ndim; rewrite Eu, app_length; cbn; lia).
  assert (Nv : 0 < ndim (aval v)) by (unfold ndim; rewrite Ev, app_length; cbn; lia).
  refine (@wrap_tight _ _ n _ c th [u; v] r Hn (@two_vok _ _ Hu Hv) _ _ _ H); [constructor; [exact Tu|constructor; [exact Tv|constructor]]| |intros E; discriminate E].
  cbn [r_fn r_fl r_axes dotlast_rule f_op f_kwaxes]. intros a Ha. unfold struct_at. cbn [axes_of]. destruct (@at_pos _ _ [u; v] a Ha) as [E HP]. set (P := posof (merge_of (mask_of [u; v])) (length (als [u; v])) (length (exs [u; v])) a) in *.
  assert (EX : nth P (map aval [u; v]) nd0 = nth a (xs_of (als [u; v])) nd0).
  { rewrite <- xs_lift, !xs_at' by (rewrite ?map_length; auto). rewrite E. reflexivity. }
  assert (HA : nth a (xs_of (als [u; v])) nd0 = aval u /\ P = 0%nat \/ nth a (xs_of (als [u; v])) nd0 = aval v /\ P = 1%nat).
  { rewrite <- EX. destruct P as [|[|P']]; cbn [map nth length] in *; auto. lia. }
  rewrite norm_last by (destruct HA as [[-> _]|[-> _]]; auto).
  split; [repeat constructor; intros []|]. split; [intros d [<-|[]]; destruct HA as [[-> _]|[-> _]]; lia|]. change (has SUMMATION 827%Z) with false. cbv iota.
  unfold reduces_at. rewrite merged_fwd. cbn [merged o_d]. fold P. rewrite merge_avals. cbn [map].
  assert (KP : forall (x : nd A) pre, sh x = pre ++ [K] -> keep_pos (ndim x) [(ndim x - 1)%nat] = seq 0 (length pre)).
  { intros x pre Ex. unfold ndim. rewrite Ex, app_length. cbn [length]. rewrite Nat.add_1_r. replace (S (length pre) - 1)%nat with (length pre) by lia. apply keepax_last. }
  assert (PS : forall (pre : list nat) k, permute (seq 0 (length pre)) (pre ++ [k]) = pre) by (intros; apply permute_seq_app).
  intros p q Hp Hq Hx. destruct HA as [[EA EP]|[EA EP]]; rewrite EA in *; rewrite EP; cbn [op_dotlast o_d nth].
  - rewrite (KP _ px Eu) in Hx. rewrite Eu in Hq, Hx |- *. rewrite removelast_snoc. destruct (@snoc_inb _ _ _ Hq) as (q0 & j & -> & Hq0 & Hj). rewrite removelast_snoc. rewrite ixeqb_neq; auto.
    rewrite PS in Hx. rewrite <- (inb_length Hq0), PS in Hx. exact Hx.
  - rewrite (KP _ py Ev) in Hx. rewrite Ev in Hq, Hx |- *. rewrite removelast_snoc. destruct (@snoc_inb _ _ _ Hq) as (q0 & j & -> & Hq0 & Hj). rewrite removelast_snoc. rewrite ixeqb_neq; auto.
    rewrite PS in Hx. rewrite <- (inb_length Hq0), PS in Hx. exact Hx.
Qed.
Lemma promote_tight k u u' : vok n u -> tight u -> promote c th k u = Some u' -> tight u'.
Proof.
  intros Hu Tu H. destruct k as [|k]; [cbn in H; injection H as <-; exact Tu|]. unfold promote in H.
  apply (@index_rule_tight _ true true [u] u' (@one_vok _ Hu)) in H; auto.
Qed.
Lemma bto_rank s t : bto s t -> length s <= length t.
Proof. intros (s0 & s1 & -> & H). rewrite app_length. apply F2_length in H. lia. Qed.
(* multiply, then sum over valid axes *)
Lemma mul_sum_tight axes u v r so : als [u; v] <> [] -> vok n u -> vok n v -> tight u -> tight v ->
  (forall u' v', promote c th (ndim (aval v) - ndim (aval u)) u = Some u' -> promote c th (ndim (aval u) - ndim (aval v)) v = Some v' -> bshape2 (sh (aval u')) (sh (aval v')) = Some so) ->
  NoDup (axes (length so)) -> (forall d, In d (axes (length so)) -> d < length so) -> mul_sum c th axes u v = Some r -> tight r.
Proof.
  intros Hne Hu Hv Tu Tv HB N1 N2 H. unfold mul_sum in H.
  destruct (promote c th (ndim (aval v) - ndim (aval u)) u) as [u'|] eqn:EU; [|discriminate]. cbn [bind] in H.
  destruct (promote c th (ndim (aval u) - ndim (aval v)) v) as [v'|] eqn:EV; [|discriminate]. cbn [bind] in H.
  destruct (wrap_fl mul_rule c th [u'; v']) as [m|] eqn:EM; [|discriminate]. cbn [bind] in H. specialize (HB u' v' eq_refl eq_refl).
  pose proof (@promote_follows _ _ n c th _ u u' Hn Hu EU) as (SU & VU & AU & _). pose proof (@promote_follows _ _ n c th _ v v' Hn Hv EV) as (SV & VV & AV & _).
  assert (Hne' : als [u'; v'] <> []). { destruct u, v, u', v'; cbn in AU, AV |- *; try discriminate; exfalso; apply Hne; reflexivity. }
  pose proof (@promote_tight _ u u' Hu Tu EU) as TU. pose proof (@promote_tight _ v v' Hv Tv EV) as TV.
  assert (TM : tight m).
  { apply (@ew_tight _ _ _ MULTIPLICATION None true [u'; v'] m (@two_vok _ _ VU VV)) in EM; auto. cbn [map]. rewrite bsh2. congruence. }
  destruct (@bilin_mul _ _ n c th u' v' m so Hn Hne' VU VV HB EM) as (m' & -> & BM). cbn [Verif.Wrap.aval] in H. pose proof BM as (SM & WM & RM & _). assert (NM : ndim (lx m') = length so) by (unfold ndim; rewrite SM; reflexivity). rewrite NM in H.
  apply (@sum_any_tight (axes (length so)) m' r) in H; auto; [split; assumption|]. intros d Hd. rewrite NM. auto.
Qed.
Lemma dot_tight Dm u v r : vok n u -> vok n v -> tight u -> tight v -> let sl := sh (aval u) in let sr := sh (aval v) in dims_ok Dm sl sr ->
  (sparse_arg u && sparse_arg v = true -> fast_taken Dm sl sr = true -> fast_right Dm sl sr) -> dot_general c th Dm u v = Some r -> tight r.
Proof.
  intros Hu Hv Tu Tv sl sr HD HR H. pose proof HD as (N1 & N2 & N3 & N4 & N5 & N6 & N7 & N8). unfold dot_general in H. fold sl sr in H.
  destruct (negb (is_al u) && negb (is_al v)) eqn:E0; [injection H as <-; exact I|].
  assert (Hne : als [u; v] <> []) by (destruct u, v; try discriminate).
  match type of H with (let* x := ?e in _) = _ => destruct e as [u'|] eqn:EU end; [|discriminate]. cbn [bind] in H.
  match type of H with (let* x := ?e in _) = _ => destruct e as [v'|] eqn:EV end; [|discriminate]. cbn [bind] in H.
  destruct (@general_path _ _ n c th Dm u v u' v' r Hn Hne Hu Hv HD EU EV) as (SU & SV & _). fold sl sr in SU, SV. set (K := prod (permute (lc Dm) sl)) in *.
  pose proof (@index_follows _ _ n _ true true c th u u' Hn Hu (@rearr_wf _ (lc Dm) (lb Dm) (length (rf Dm sr)) false N1 N2) EU) as (_ & VU & AU & _).
  pose proof (@index_follows _ _ n _ true true c th v v' Hn Hv (@rearr_wf _ (rc Dm) (rb Dm) (length (lf Dm sl)) true N3 N4) EV) as (_ & VV & AV & _).
  assert (TU : tight u') by (apply (@index_rule_tight _ true true [u] u' (@one_vok _ Hu)) in EU; auto).
  assert (TV : tight v') by (apply (@index_rule_tight _ true true [v] v' (@one_vok _ Hv)) in EV; auto).
  assert (Hne' : als [u'; v'] <> []). { destruct u, v, u', v'; cbn in AU, AV |- *; try discriminate; exfalso; apply Hne; reflexivity. }
  rewrite SU, SV in H. rewrite (@bshape2_app (lpre Dm sl sr) (rpre Dm sl sr) (dot_shape Dm sl sr) [K] [K] [K] eq_refl (pre_b HD) (bshape2_self _)) in H. cbn [bind] in H.
  assert (P1 : forall s : shape, prod (s ++ [K]) = (prod s * K)%nat) by (intros s; rewrite prod_app; cbn; lia). rewrite !P1 in H.
  assert (P2 : prod (lpre Dm sl sr) = prod (permute (lb Dm) sl ++ permute (lf Dm sl) sl)) by (unfold lpre; rewrite !prod_app, prod_ones; lia).
  assert (P3 : prod (rpre Dm sl sr) = prod (permute (rb Dm) sr ++ permute (rf Dm sr) sr)) by (unfold rpre; rewrite !prod_app, prod_ones; lia). rewrite P2, P3 in H.
  destruct (_ && (sparse_arg u && sparse_arg v)) eqn:EF; [|apply (@dotlast_tight u' v' r _ _ K VU VV TU TV SU SV H)].
  destruct (special Dm sl sr) eqn:ES.
  - apply andb_true_iff in EF. destruct EF as [EF EW]. assert (HF : fast_right Dm sl sr) by (apply HR; [exact EW|]; unfold fast_taken; cbv zeta; fold K; rewrite EF; exact ES). clear HR.
    unfold special in ES. apply andb_true_iff in ES. destruct ES as [HS _]. apply andb_true_iff in HS. destruct HS as [HS S5]. apply andb_true_iff in HS. destruct HS as [HS _]. apply andb_true_iff in HS. destruct HS as [HS _].
    apply andb_true_iff in HS. destruct HS as [S1 S2]. apply zlist_eqb_eq in S1, S2.
    pose proof (@free_length (length sl) (lb Dm) (lc Dm) N1 N2) as FL. pose proof (@free_length (length sr) (rb Dm) (rc Dm) N3 N4) as FR. fold (lf Dm sl) in FL. fold (rf Dm sr) in FR.
    apply (@mul_sum_tight (fun _ => lc Dm) u v r (if length sl =? 0 then sr else sl) Hne Hu Hv Tu Tv); [|exact (sub_app_r _ _ N1)| |exact H].
    + intros u2 v2 EU2 EV2. pose proof (@promote_follows _ _ n c th _ u u2 Hn Hu EU2) as (SU2 & _). pose proof (@promote_follows _ _ n c th _ v v2 Hn Hv EV2) as (SV2 & _). unfold ndim in SU2, SV2. fold sl sr in SU2, SV2. rewrite SU2, SV2. destruct HF as [(R1 & R2)|R1].
      * set (k := length (lf Dm sl)) in *. rewrite R1 in FR. cbn [length] in FR. assert (NL : length sl = (k + length sr)%nat) by lia.
        pose proof (@negdims_shift _ _ k _ _ NL S1) as Elc. pose proof (@negdims_shift _ _ k _ _ NL S2) as Elb.
        replace (length sr - length sl)%nat with 0%nat in * by lia. replace (length sl - length sr)%nat with k in * by lia. cbn [repeat app skipn].
        assert (HX : forall d, (d < length sr)%nat -> In d (rb Dm) \/ In d (rc Dm)).
        { intros d Hd. destruct (in_dec Nat.eq_dec d (rb Dm)); auto. destruct (in_dec Nat.eq_dec d (rc Dm)); auto. exfalso. assert (HI : In d (rf Dm sr)) by (apply free_In; auto). rewrite R1 in HI. destruct HI. }
        assert (ESR : skipn k sl = sr).
        { apply nth_ext with (d := 0%nat) (d' := 0%nat); [rewrite skipn_length; lia|]. intros d Hd. rewrite skipn_length in Hd. rewrite nth_skip. assert (Hd' : (d < length sr)%nat) by lia. destruct (HX d Hd') as [Hi|Hi].
          - pose proof (pos_lt _ _ Hi) as L. apply (f_equal (fun l => nth (pos d (rb Dm)) l 0%nat)) in N7. unfold permute in N7. rewrite !nth_map_in with (dx := 0%nat) in N7 by (rewrite ?N5; auto). rewrite nth_pos in N7 by auto.
            rewrite Elb in N7. rewrite nth_map_in with (dx := 0%nat) in N7 by auto. rewrite nth_pos in N7 by auto. exact N7.
          - pose proof (pos_lt _ _ Hi) as L. apply (f_equal (fun l => nth (pos d (rc Dm)) l 0%nat)) in N8. unfold permute in N8. rewrite !nth_map_in with (dx := 0%nat) in N8 by (rewrite ?N6; auto). rewrite nth_pos in N8 by auto.
            rewrite Elc in N8. rewrite nth_map_in with (dx := 0%nat) in N8 by auto. rewrite nth_pos in N8 by auto. exact N8. }
        destruct (Nat.eqb_spec (length sl) 0) as [Z|Z].
        { assert (k = 0%nat) as -> by lia. cbn [skipn] in ESR. rewrite ESR. cbn [repeat app]. apply bshape2_self. }
        rewrite <- (firstn_skipn k sl) at 1 2. rewrite ESR. apply bshape2_app; [reflexivity| |apply bshape2_self]. assert (EK : length (firstn k sl) = k) by (rewrite firstn_length; lia). rewrite <- EK at 2. apply bshape2_ones.
      * rewrite R1. cbn [length Nat.eqb]. rewrite Nat.sub_0_r, app_nil_r. cbn [Nat.sub repeat app]. apply bshape2_ones.
    + intros d Hd. assert (d < length sl) by (apply N2; apply in_or_app; auto). destruct (Nat.eqb_spec (length sl) 0); lia.
  - apply (@mul_sum_tight (fun rank => [(rank - 1)%nat]) u' v' r (dot_shape Dm sl sr ++ [K]) Hne' VU VV TU TV); [|repeat constructor; intros []| |exact H].
    + intros u2 v2 EU2 EV2. pose proof (@promote_follows _ _ n c th _ u' u2 Hn VU EU2) as (SU2 & _). pose proof (@promote_follows _ _ n c th _ v' v2 Hn VV EV2) as (SV2 & _).
      assert (EL : ndim (aval u') = ndim (aval v')).
      { unfold ndim. rewrite SU, SV, !app_length. f_equal. unfold lpre, rpre. rewrite !app_length, !permute_length, !repeat_length. lia. }
      rewrite SU2, SV2, EL, Nat.sub_diag. cbn [repeat app]. rewrite SU, SV. apply (@bshape2_app (lpre Dm sl sr) (rpre Dm sl sr) (dot_shape Dm sl sr) [K] [K] [K] eq_refl (pre_b HD) (bshape2_self _)).
    + intros d [<-|[]]. rewrite app_length. cbn. lia.
Qed.
End W.

(* ---- programs ---- *)
(* a primitive whose rule is exact whatever the mixture of Jacobians: an elementwise function of at most two arguments; an indexing operation whose indices
   are known while tracing and which either has one operand or places all of them; other functions either of one argument or of arrays only, no scalars (C13);
   dot_general unless the transpositions are skipped wrongly (C24).  slogdet (of real and complex matrices) is left out: its rule runs with threshold 0 whatever the threshold of the trace,
   so that its dense result may have fewer rows than the threshold (C17).  Functions of complex arrays and scatter are left out too: their layouts are
   covered by smooth_run with mix_at *)
Definition static_prim (k : prim) (xs : list (nd R)) : Prop :=
  match k with
  | PEw _ _ _ => length xs <= 2
  | PIndex _ ok filled => ok = true /\ (filled = true \/ length xs = 1) /\ (length xs <= 2 \/ forall x, In x xs -> ndim x <> 0)
  | PLinear _ | POther _ => length xs = 1 \/ forall x, In x xs -> ndim x <> 0
  | PDot D => match xs with [x; y] => fast_taken D (sh x) (sh y) = true -> fast_right D (sh x) (sh y) | _ => True end
  | PSlogdet | PCplx _ | PScatter _ _ _ _ _ | PSlogC => False
  | _ => True
  end.
(* specification: calls of unregistered functions without the hazards of findings 20 and 23 *)
Definition static_call (xs : list (nd R)) : Prop := length xs = 1 \/ forall x, In x xs -> ndim x <> 0.
(* smooth_run, every primitive static; the bodies of scans consist of functions whose output shape depends on the input shapes only *)
Definition static_run : @jaxpr R prim -> bool -> list (nd R) -> Prop := smooth_runP static_prim (fun _ => True) (fun body _ _ _ => shape_only_prog body).

Lemma als_in_vals (args : list (arg R)) (P : nd R -> Prop) : (forall x, In x (map (@aval R) args) -> P x) -> forall a, In a (als args) -> P (lx a).
Proof. intros H a Ha. apply In_als in Ha. apply (H (lx a)). apply in_map_iff. exists (AL a). split; [reflexivity|exact Ha]. Qed.
Lemma tight_mix2 n th (args : list (arg R)) : Forall (tight th) args -> mix2 th n (als args).
Proof. intros H. right. intros a Ha W. right. apply In_als in Ha. rewrite Forall_forall in H. specialize (H _ Ha). cbn [tight] in H. destruct H as [H|H]; [congruence|exact H]. Qed.
Lemma static_mixF (args : list (arg R)) : als args <> [] -> static_call (map (@aval R) args) -> mixF (als args).
Proof.
  intros Hne [H|H].
  - rewrite map_length in H. right. left. pose proof (als_len args) as L. destruct (als args) as [|? [|? ?]]; cbn in *; try congruence; lia.
  - do 3 right. intros a Ha. left. exact (@als_in_vals args (fun x => ndim x <> 0) H a Ha).
Qed.
Lemma static_mix th n k args : Forall (tight th) args -> als args <> [] -> static_prim k (map (@aval R) args) -> mix_at th n k args.
Proof.
  intros HT Hne HS. pose proof (@tight_mix2 n th args HT) as M2. pose proof (als_len args) as L. destruct k; cbn [mix_at static_prim] in *; try contradiction; auto.
  - rewrite map_length in HS. split; [apply mix1_two; lia|exact M2].
  - destruct HS as (_ & _ & [H|H]); [rewrite map_length in H; right; left; lia|]. do 2 right. intros a Ha. left. exact (@als_in_vals args (fun x => ndim x <> 0) H a Ha).
  - apply static_mixF; assumption.
  - destruct args as [|u [|v [|? ?]]]; try exact I. intros _. exact HS.
  - split; [apply static_mixF; assumption|exact M2].
Qed.
Section Prog.
Context (c2r : bool) (th : Z) (n : nat) (Hn : 0 < n).
Lemma default_tight (fs : list (op R)) args outs : Forall (tight th) args -> (forall u, In u args -> vok n u) -> default_rule c2r fs th args = Some outs -> Forall (tight th) outs.
Proof.
  intros HT HV. unfold default_rule. revert outs. induction fs as [|f fs IH]; intros outs H; cbn in H; [injection H as <-; constructor|].
  destruct (wrap_fl _ c2r th args) as [v|] eqn:Ev; [|discriminate]. destruct (sequence _) as [vs|]; [|discriminate]. cbn in H. injection H as <-. constructor; [|apply IH; reflexivity].
  apply (@fn_tight _ _ n Hn c2r th f _ _ _ args v HV HT) in Ev; [exact Ev|reflexivity|reflexivity].
Qed.
Lemma prim_tight k args outs : Forall (tight th) args -> (forall u, In u args -> vok n u) -> als args <> [] -> applies k (map (@aval R) args) -> diff_at k (map (@aval R) args) -> static_prim k (map (@aval R) args) ->
  eval_prim (prim_reg c2r) c2r k (prim_ops k) th args = Some outs -> Forall (tight th) outs.
Proof.
  intros HT HV Hne HA HD HS H. unfold eval_prim in H.
  destruct k; cbn [prim_reg prim_op prim_ops] in *; cbv beta in H; try (match type of H with one _ = _ => idtac end; apply one_some in H; destruct H as (r & Hr & ->); constructor; [|constructor]).
  - cbn in HA. destruct HA as [_ HB]. refine (@ew_tight _ _ n Hn c2r th _ _ _ _ _ _ args r HV HT HB _ Hr); reflexivity.
  - cbn in HA. destruct HA as [_ HB]. refine (@ew_tight _ _ n Hn c2r th _ _ _ _ _ _ args r HV HT HB _ Hr); reflexivity.
  - cbn in HA. destruct HA as [_ HB]. refine (@ew_tight _ _ n Hn c2r th _ _ _ _ _ _ args r HV HT HB _ Hr); reflexivity.
  - cbn in HA. destruct HA as [_ HB]. refine (@ew_tight _ _ n Hn c2r th _ _ _ _ _ _ args r HV HT HB _ Hr); reflexivity.
  - cbn in HA. destruct HA as [_ HB]. refine (@ew_tight _ _ n Hn c2r th _ _ _ _ _ _ args r HV HT HB _ Hr); reflexivity.
  - refine (@ew_tight _ _ n Hn c2r th _ _ _ _ _ _ args r HV HT HA _ Hr); reflexivity.
  - destruct HA as (x & Ex & H1 & H2 & H3). destruct (one_arg _ Ex Hne) as (a & -> & <-). inversion HT; subst. apply (@sum_any_tight _ _ n Hn c2r th axes a r); auto. apply HV. left. reflexivity.
  - destruct HA as [(x & Ex & H1 & H2 & H3) HF]. destruct (one_arg _ Ex Hne) as (a & -> & <-). inversion HT; subst. destruct HD as (D1 & _). apply (@red_tight _ _ n Hn c2r th f axes 15%Z a r); auto. apply HV. left. reflexivity.
  - destruct HA as [(x & Ex & H1 & H2 & H3) HF]. destruct (one_arg _ Ex Hne) as (a & -> & <-). inversion HT; subst. destruct HD as (D1 & _). apply (@red_tight _ _ n Hn c2r th f axes REDUCTION a r); auto. apply HV. left. reflexivity.
  - destruct HS as (S1 & S2 & _). rewrite map_length in S2. apply (@index_rule_tight _ _ n Hn c2r th g ok filled args r HV HT S1 S2 Hr).
  - refine (@fn_tight _ _ n Hn c2r th f _ _ _ args r HV HT _ _ Hr); reflexivity.
  - destruct HA as (x & y & E & HDm). destruct args as [|u [|w [|? ?]]]; try discriminate. cbn [map] in E. injection E as E1 E2. subst x y. cbn [dot_prim] in Hr. destruct (dot_general c2r th D u w) as [r0|] eqn:E0; [|discriminate]. cbn in Hr. injection Hr as <-.
    assert (HR : tight th r0); [|destruct r0; exact HR]. inversion HT as [|? ? T1 HT1]; subst. inversion HT1 as [|? ? T2 _]; subst.
    apply (@dot_tight _ _ n Hn c2r th D u w r0 (HV u (or_introl eq_refl)) (HV w (or_intror (or_introl eq_refl))) T1 T2 HDm); [|exact E0]. intros _. exact HS.
  - unfold without_fl in Hr. injection Hr as <-. exact I.
  - destruct HS.
  - destruct HS.
  - apply (@default_tight _ _ _ HT HV H).
  - destruct HS.
  - destruct HS.
Qed.
Lemma static_prims key args outs : valid n (tight th) args -> als args <> [] -> eq_guard (fun k a => static_prim k (map (@aval R) a)) key (prim_ops key) args ->
  eval_prim (prim_reg c2r) c2r key (prim_ops key) th args = Some outs -> prim_good n (prim_ops key) args outs /\ Forall (tight th) outs.
Proof.
  intros [HT HV] Hne (_ & G1 & G2) H. destruct (G2 Hne) as [G3 G4]. split; [|apply (@prim_tight key args outs HT HV Hne G1 G3 G4 H)].
  apply (@prim_ok n c2r th key args outs Hn HV Hne); [|exact H]. split; [reflexivity|]. split; [exact G1|]. intros _. split; [exact G3|apply (@static_mix th n key args HT Hne G4)].
Qed.
Lemma static_customs fs args outs : valid n (tight th) args -> als args <> [] -> custom_guard (fun _ => True) fs args -> list_rule c2r fs th args = Some outs -> prim_good n fs args outs /\ Forall (tight th) outs.
Proof.
  intros [HT HV] Hne HG H. destruct (@list_mix _ _ n _ _ _ _ _ H) as [M1 M2]. apply list_default in H. split; [|apply (@default_tight fs args outs HT HV H)].
  apply (@custom_ok n c2r th _ args outs Hn HV Hne M1 M2); [|exact H]. intros f Hf. destruct (HG f Hf) as [_ G1]. destruct (G1 Hne) as (A & B & _). auto.
Qed.
Lemma tight_ext (v u : arg R) : ext_idx u v -> tight th v -> tight th (set_idx v u).
Proof.
  destruct u as [b|y], v as [a|x]; cbn [ext_idx set_idx tight]; auto. unfold tj, weak. cbn [ljac jidx jdata]. destruct (jidx (ljac a)), (jidx (ljac b)); tauto.
Qed.
(* the interpreter on such programs *)
Theorem run_static j args rs W : jrun (prim_reg c2r) (name_reg c2r) c2r false th j true args = Some rs -> valid n (tight th) args -> static_run j true (map (@aval R) args) -> tracks n args W ->
  (exists P, (forall i, i < n -> near (fun t => plain_run j true (W i t) = Some (P i t))) /\ tracks n rs P) /\ plain_run j true (map (@aval R) args) = Some (map (@aval R) rs) /\ valid n (tight th) rs.
Proof.
  intros H HV HS HT.
  destruct (@smooth_good c2r th n (tight th) (fun _ => I) static_prim (fun _ => True) (fun body _ _ _ => shape_only_prog body) static_prims static_customs tight_ext (fun j0 nc nk a S0 _ => @shape_scan c2r th j0 nc nk a S0) j args HV HS) as [G1 G2]. split; [|exact (G2 rs H)].
  destruct (@both_sound c2r th n (tight th) (fun _ => I) _ _ (fun body _ _ _ => shape_only_prog body) tight_ext static_prims static_customs (fun j0 nc nk a _ S0 => @shape_scan c2r th j0 nc nk a S0) j true args rs W H (proj1 HV) G1 HT) as (P & P1 & P2 & _). exists P. auto.
Qed.
End Prog.
Lemma seeds_tight th ws xs : wts_ok ws xs -> valid (total (map (@sh R) xs)) (tight th) (seeds (0 <? th)%Z ws xs).
Proof.
  intros HW. split.
  - apply Forall_forall. intros v Hv. unfold seeds in Hv. apply in_map_iff in Hv. destruct Hv as (k & <- & Hk). apply in_seq in Hk. destruct (@seed_ok R CRing_R ws xs (0 <? th)%Z k HW ltac:(lia)) as (_ & _ & _ & S4 & S5 & _). cbn [tight]. unfold tj. destruct (Z.ltb_spec 0 th).
    + left. exact S4.
    + right. lia.
  - intros v Hv. unfold seeds in Hv. apply in_map_iff in Hv. destruct Hv as (k & <- & Hk). apply in_seq in Hk. destruct (@seed_ok R CRing_R ws xs (0 <? th)%Z k HW ltac:(lia)) as (_ & S2 & S3 & _). split; assumption.
Qed.
Lemma seeds_values sparse ws xs : map (@aval R) (seeds sparse ws xs) = xs.
Proof. unfold seeds. rewrite map_map. cbn [aval seed lx]. apply map_seq_id. Qed.
Local Notation fwd c2r := (forward_laplacian (prim_reg c2r) (name_reg c2r) c2r).
Theorem forward_static c2r t j ws xs rs : 0 < total (map (@sh R) xs) -> wts_ok ws xs -> smallj j -> static_run j true xs ->
  fwd c2r t j ws (map (@AX R) xs) = Some rs -> exact_at (plain_run j true) xs (coord_weight ws xs) rs /\ map (@aval R) rs = match plain_run j true xs with Some ys => ys | None => [] end.
Proof.
  intros Hn HW HS HR H. unfold forward_laplacian in H. cbv zeta in H. set (th := threshold_of t (map (fun v => prod (sh (aval v))) (map (@AX R) xs))) in *.
  rewrite init_plain in H. rewrite jrun_frees_nothing in H by exact HS.
  assert (HR' : static_run j true (map (@aval R) (seeds (0 <? th)%Z ws xs))) by (rewrite seeds_values; exact HR).
  destruct (@run_static c2r th _ Hn j _ rs _ H (@seeds_tight th ws xs HW) HR' (@seed_tracks (0 <? th)%Z ws xs HW)) as ((P & P1 & P2) & P3 & _). split; [apply (@tracks_exact _ xs _ rs P Hn P1 P2)|]. rewrite seeds_values in P3. rewrite P3. reflexivity.
Qed.
Lemma forward_rows c2r t j ws xs rs : 0 < total (map (@sh R) xs) -> wts_ok ws xs -> smallj j -> static_run j true xs ->
  fwd c2r t j ws (map (@AX R) xs) = Some rs -> forall a, In (AL a) rs -> awf (total (map (@sh R) xs)) a /\ jrow1 (ljac a).
Proof.
  intros Hn HW HS HR H a Ha. unfold forward_laplacian in H. cbv zeta in H. set (th := threshold_of t (map (fun v => prod (sh (aval v))) (map (@AX R) xs))) in *.
  rewrite init_plain in H. rewrite jrun_frees_nothing in H by exact HS.
  assert (HR' : static_run j true (map (@aval R) (seeds (0 <? th)%Z ws xs))) by (rewrite seeds_values; exact HR).
  destruct (@run_static c2r th _ Hn j _ rs _ H (@seeds_tight th ws xs HW) HR' (@seed_tracks (0 <? th)%Z ws xs HW)) as (_ & _ & [_ P5]). exact (P5 _ Ha).
Qed.
(* composition: the threshold of the second call is not larger than the threshold of the first *)
Lemma tight_le th th2 (rs : list (arg R)) : (th2 <= th)%Z -> Forall (tight th) rs -> Forall (tight th2) rs.
Proof. intros Hle. apply Forall_impl. intros [a|x]; cbn [tight]; auto. intros [H|H]; [left; exact H|right; lia]. Qed.
Theorem compose_static c2r t t2 f g ws ws2 xs rs rs2 : 0 < total (map (@sh R) xs) -> wts_ok ws xs -> smallj f -> smallj g ->
  static_run f true xs -> fwd c2r t f ws (map (@AX R) xs) = Some rs -> existsb (@is_al R) rs = true -> (th_of t2 rs <= th_of t (map (@AX R) xs))%Z ->
  (forall ys, plain_run f true xs = Some ys -> static_run g true ys) -> fwd c2r t2 g ws2 rs = Some rs2 -> exact_at (then_ f g) xs (coord_weight ws xs) rs2.
Proof.
  intros Hn HW HS HS2 HR H He Hle HR2 H2. unfold forward_laplacian in H, H2. cbv zeta in H, H2. change (threshold_of t (map (fun v => prod (sh (aval v))) (map (@AX R) xs))) with (th_of t (map (@AX R) xs)) in H. change (threshold_of t2 (map (fun v => prod (sh (aval v))) rs)) with (th_of t2 rs) in H2.
  set (th := th_of t (map (@AX R) xs)) in *. rewrite init_plain in H. rewrite jrun_frees_nothing in H by exact HS.
  assert (HR' : static_run f true (map (@aval R) (seeds (0 <? th)%Z ws xs))) by (rewrite seeds_values; exact HR).
  destruct (@run_static c2r th _ Hn f _ rs _ H (@seeds_tight th ws xs HW) HR' (@seed_tracks (0 <? th)%Z ws xs HW)) as ((P & P1 & P2) & P3 & [P4 P5]). rewrite seeds_values in P3.
  unfold init_state in H2. rewrite He in H2. rewrite jrun_frees_nothing in H2 by exact HS2.
  destruct (@run_static c2r (th_of t2 rs) _ Hn g rs rs2 P H2 (conj (tight_le Hle P4) P5) (HR2 _ P3) P2) as ((Q & Q1 & Q2) & _).
  apply (@tracks_exact _ xs _ rs2 Q Hn (@near_then _ f g xs _ P Q P1 Q1) Q2).
Qed.
