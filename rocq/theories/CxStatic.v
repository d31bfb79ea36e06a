(* CxStatic.v : TightCalc.v for programs with complex arrays.  Whether the components of a complex element share one index of a sparse Jacobian is decided
   from the text of the program (CxMarks.v), so the conditions are again about plain evaluation of the program only. *)
From Coq Require Import Reals Lra QArith.
From Coquelicot Require Import Coquelicot.
From Verif Require Export TightCalc CxPlain.
Set Implicit Arguments.
Open Scope nat_scope.

(* specification: static_prim for functions of complex arrays; scatter is left out *)
Definition static_ck (c : ckern) (xs : list (nd (R * R))) : Prop :=
  match c with
  | KFun _ _ => length xs <= 2
  | KIndex _ ok filled => ok = true /\ (filled = true \/ length xs = 1) /\ (length xs <= 2 \/ forall x, In x xs -> ndim x <> 0)
  | KLinear _ | KOther _ => length xs = 1 \/ forall x, In x xs -> ndim x <> 0
  | KDot D => match xs with [x; y] => fast_taken D (sh x) (sh y) = true -> fast_right D (sh x) (sh y) | _ => True end
  | KScatter _ _ _ _ _ => False
  | _ => True
  end.
(* specification: static_prim, with functions of complex arrays; the modulus is left out (C21: its rule needs distinct indices) *)
Definition cstatic_prim (k : prim) (xs : list (nd R)) : Prop :=
  match k with
  | PCplx (CKern c) => static_ck c (map join2 xs)
  | PCplx (CCross _) => True
  | PCplx CAbs => False
  | _ => static_prim k xs
  end.
(* specification: static_run, with functions of complex arrays *)
Definition cstatic_run : @jaxpr R prim -> bool -> list (nd R) -> Prop := smooth_runP cstatic_prim (fun _ => True) (fun body _ _ _ => shape_only_prog body).

(* ---- the layouts ---- *)
Lemma dec_tight th v n : vok n v -> iscx (aval v) -> tight th v -> tight th (dec v).
Proof.
  destruct v as [a|x]; [|auto]. intros HV HX HT. destruct (vok_rows HV HX) as (k & s & _ & E). cbn [dec tight] in *. unfold tj, weak in *. cbn [join_la ljac join_jac jidx jdata].
  rewrite (rows_cons _ (@sh_joinJ _ k s E)). rewrite (rows_cons _ E) in HT. destruct (jidx (ljac a)); cbn [option_map]; exact HT.
Qed.
Lemma enc_tight th n (w : arg (R * R)) : vok n w -> tight th w -> tight th (enc w).
Proof.
  destruct w as [a|x]; [|auto]. intros HV HT. cbn [enc tight] in *. unfold tj, weak in *. cbn [split_la ljac split_jac jidx jdata]. destruct HV as [[(k & Ek & _) _] _].
  assert (ER : rows (split2 (jdata (ljac a))) = rows (jdata (ljac a))) by (unfold rows; cbn [split2 sh]; rewrite Ek; reflexivity). rewrite ER. destruct (jidx (ljac a)); cbn [option_map]; exact HT.
Qed.
Lemma cx_als_vals (args : list (arg (R * R))) (P : nd (R * R) -> Prop) : (forall x, In x (map (@aval (R * R)) args) -> P x) -> forall a, In a (als args) -> P (lx a).
Proof. intros H a Ha. apply In_als in Ha. apply (H (lx a)). apply in_map_iff. exists (AL a). split; [reflexivity|exact Ha]. Qed.
Lemma cx_mix2 n th (args : list (arg (R * R))) : Forall (tight th) args -> mix2 th n (als args).
Proof. intros H. right. intros a Ha W. right. apply In_als in Ha. rewrite Forall_forall in H. specialize (H _ Ha). cbn [tight] in H. destruct H as [H|H]; [congruence|exact H]. Qed.
Lemma cx_mixF (args : list (arg (R * R))) : als args <> [] -> (length (map (@aval (R * R)) args) = 1 \/ forall x, In x (map (@aval (R * R)) args) -> ndim x <> 0) -> mixF (als args).
Proof.
  intros Hne [H|H].
  - rewrite map_length in H. right. left. pose proof (als_len args) as L. destruct (als args) as [|? [|? ?]]; cbn in *; try congruence; lia.
  - do 3 right. intros a Ha. left. exact (@cx_als_vals args (fun x => ndim x <> 0) H a Ha).
Qed.
Lemma static_ck_mix th n c (args : list (arg (R * R))) : Forall (tight th) args -> als args <> [] -> static_ck c (map (@aval (R * R)) args) -> ck_mix th n c args.
Proof.
  intros HT Hne HS. pose proof (@cx_mix2 n th args HT) as M2. pose proof (als_len args) as L. destruct c; cbn [ck_mix static_ck] in *; try contradiction; auto.
  - rewrite map_length in HS. split; [apply mix1_two; lia|exact M2].
  - destruct HS as (_ & _ & [H|H]); [rewrite map_length in H; right; left; lia|]. do 2 right. intros a Ha. left. exact (@cx_als_vals args (fun x => ndim x <> 0) H a Ha).
  - apply cx_mixF; assumption.
  - destruct args as [|u [|v [|? ?]]]; try exact I. intros _. exact HS.
  - split; [apply cx_mixF; assumption|exact M2].
Qed.
Lemma ck_tight c2r th n (Hn : 0 < n) c (args : list (arg (R * R))) r : (forall u, In u args -> vok n u) -> Forall (tight th) args -> als args <> [] -> ck_applies c (map (@aval (R * R)) args) -> ck_diff c (map (@aval (R * R)) args) ->
  static_ck c (map (@aval (R * R)) args) -> ck_run c c2r th args = Some r -> tight th r.
Proof.
  intros HV HT Hne HA HD HS H. destruct c; cbn [ck_applies ck_diff static_ck ck_run] in *.
  - destruct HA as [_ HB]. refine (@ew_tight _ _ n Hn c2r th _ _ _ _ _ _ args r HV HT HB _ H); reflexivity.
  - destruct HA as [_ HB]. refine (@ew_tight _ _ n Hn c2r th _ _ _ _ _ _ args r HV HT HB _ H); reflexivity.
  - destruct HA as [_ HB]. refine (@ew_tight _ _ n Hn c2r th _ _ _ _ _ _ args r HV HT HB _ H); reflexivity.
  - destruct HA as [[_ HB] _]. refine (@ew_tight _ _ n Hn c2r th _ _ _ _ _ _ args r HV HT HB _ H); reflexivity.
  - destruct HA as (x & Ex & H1 & H2 & H3). destruct (one_arg _ Ex Hne) as (a & -> & <-). inversion HT; subst. apply (@sum_any_tight _ _ n Hn c2r th axes a r); auto. apply HV. left. reflexivity.
  - destruct HA as [(x & Ex & H1 & H2 & H3) HF]. destruct (one_arg _ Ex Hne) as (a & -> & <-). inversion HT; subst. destruct HD as (D1 & _). apply (@red_tight _ _ n Hn c2r th f axes REDUCTION a r); auto. apply HV. left. reflexivity.
  - destruct HS as (S1 & S2 & _). rewrite map_length in S2. apply (@index_rule_tight _ _ n Hn c2r th g ok filled args r HV HT S1 S2 H).
  - refine (@fn_tight _ _ n Hn c2r th f _ _ _ args r HV HT _ _ H); reflexivity.
  - destruct HA as (x & y & E & HDm). destruct args as [|u [|w [|? ?]]]; try discriminate. cbn [map] in E. injection E as E1 E2. subst x y. cbn [dot_prim] in H. destruct (dot_general c2r th D u w) as [r0|] eqn:E0; [|discriminate]. cbn in H. injection H as <-.
    assert (HR : tight th r0); [|destruct r0; exact HR]. inversion HT as [|? ? T1 HT1]; subst. inversion HT1 as [|? ? T2 _]; subst.
    apply (@dot_tight _ _ n Hn c2r th D u w r0 (HV u (or_introl eq_refl)) (HV w (or_intror (or_introl eq_refl))) T1 T2 HDm); [|exact E0]. intros _. exact HS.
  - refine (@fn_tight _ _ n Hn c2r th f _ _ _ args r HV HT _ _ H); reflexivity.
  - destruct HS.
Qed.
Lemma cross_tight th n k v r : vok n v -> tight th v -> cross_in k (aval v) -> cross_run k [v] = Some r -> tight th r.
Proof.
  intros HV HT HX H. destruct v as [a|x]; [|destruct k; cbn in H; injection H as <-; exact I]. cbn [aval] in HX. cbn [tight] in HT.
  assert (DT : iscx (lx a) -> tight th (AL (join_la a))) by (intros HI; exact (@dec_tight th (AL a) n HV HI HT)).
  destruct k; cbn [cross_run dec enc map wrap_elementwise option_map] in H; injection H as <-; cbn [cross_in] in HX.
  - exact (DT HX).
  - exact (DT HX).
  - specialize (DT HX). cbn [tight enc] in *. unfold tj, weak in *. cbn [split_la ljac split_jac jidx jdata lmap jmap] in *. destruct (vok_rows HV HX) as (k & s & _ & E).
    assert (ER : rows (split2 (ndmap cconj (jdata (ljac (join_la a))))) = k) by (unfold rows; cbn; rewrite E; change (k :: s ++ [2]) with ((k :: s) ++ [2]); rewrite removelast_last; reflexivity).
    assert (ES : rows (join2 (jdata (ljac a))) = k) by (exact (rows_cons _ (@sh_joinJ _ k s E))).
    cbn [join_la ljac join_jac jidx jdata] in *. rewrite ER. rewrite ES in DT. destruct (jidx (ljac a)); exact DT.
  - cbn [tight enc]. unfold tj, weak in *. cbn [split_la ljac split_jac jidx jdata lmap jmap] in *. destruct HV as [[(k & Ek & _) _] _].
    assert (ER : rows (split2 (ndmap to_complex (jdata (ljac a)))) = k) by (unfold rows; cbn; rewrite Ek; reflexivity). rewrite ER. rewrite (rows_cons _ Ek) in HT. destruct (jidx (ljac a)); exact HT.
  - exact HT.
Qed.

(* ---- programs ---- *)
Section Prog.
Context (c2r : bool) (th : Z) (n : nat) (Hn : 0 < n).
Notation mixc := (mixm cstatic_prim).
Lemma cstatic_prims key args outs : valid n (tight th) args -> als args <> [] -> eq_guard mixc key (prim_ops key) args ->
  eval_prim (prim_reg c2r) c2r key (prim_ops key) th args = Some outs -> prim_good n (prim_ops key) args outs /\ Forall (tight th) outs.
Proof.
  intros HVT Hne (Q1 & G1 & G2) H. destruct (G2 Hne) as [G3 [G4 (ms & ms' & Gm & Gk)]].
  assert (D : (exists c, key = PCplx c) \/ forall xs, cstatic_prim key xs = static_prim key xs) by (destruct key; eauto; right; reflexivity).
  destruct D as [(c & ->)|D].
  2:{ refine (@static_prims c2r th n Hn key args outs HVT Hne _ H). split; [exact Q1|]. split; [exact G1|]. intros _. split; [exact G3|]. rewrite D in G4. exact G4. }
  destruct HVT as [HT HV].
  assert (HC : forall (Hx : forall x, In x (map (@aval R) args) -> iscx x) (HP : Forall paired args), (forall u, In u (map dec args) -> vok n u) /\ Forall (tight th) (map dec args)).
  { intros Hx HP. rewrite Forall_forall in HP, HT. split; [|apply Forall_forall]; intros u Hu; apply in_map_iff in Hu; destruct Hu as (v & <- & Hv); assert (Hi : iscx (aval v)) by (apply Hx; apply in_map; exact Hv).
    - exact (@dec_vok n v (HV v Hv) Hi (HP v Hv)).
    - exact (@dec_tight th v n (HV v Hv) Hi (HT v Hv)). }
  assert (Hne' : als (map dec args) <> []) by (rewrite als_dec; destruct (als args); [congruence|discriminate]).
  assert (HM : cx_mix th n c args).
  { destruct c as [k|k|]; cbn [cx_mix cstatic_prim mk_prim] in *; [|destruct k; auto; exact (proj1 (@mok_need _ _ _ _ Gm Gk))|contradiction].
    destruct (@mok_need _ _ _ _ Gm Gk) as [HP _]. split; [exact HP|]. cbn [applies cx_applies] in G1. destruct (HC (proj1 G1) HP) as [C1 C2]. apply static_ck_mix; auto. rewrite dec_avals. exact G4. }
  split; [apply (@prim_ok n c2r th (PCplx c) args outs Hn HV Hne); [split; [reflexivity|]; split; [exact G1|]; intros _; split; [exact G3|exact HM]|exact H]|].
  unfold eval_prim in H. cbn [prim_reg] in H. cbv beta in H. apply one_some in H. destruct H as (r & Hr & ->). constructor; [|constructor].
  destruct c as [k|k|]; cbn [cx_mix cstatic_prim applies diff_at cx_applies cx_diff cx_run] in *; [| |contradiction].
  - destruct HM as [HP HM]. destruct G1 as [X1 X2]. destruct (HC X1 HP) as [C1 C2]. destruct (ck_run k c2r th (map dec args)) as [w|] eqn:Ew; [|discriminate]. cbn [option_map] in Hr. injection Hr as <-.
    rewrite <- dec_avals in X2, G3, G4. destruct (@ck_ok n k c2r th (map dec args) w Hn C1 Hne' X2 G3 HM Ew) as (a & -> & (A1 & A2 & _) & A3).
    apply (@enc_tight th n (AL a)); [split; assumption|]. exact (@ck_tight c2r th n Hn k (map dec args) (AL a) C1 C2 Hne' X2 G3 G4 Ew).
  - destruct G1 as (x & Ex & HX). destruct args as [|v [|? ?]]; try discriminate. cbn in Ex. injection Ex as <-. inversion HT; subst. exact (@cross_tight th n k v r (HV v (or_introl eq_refl)) H1 HX Hr).
Qed.
(* the interpreter on such programs *)
Theorem run_cstatic j ms args rs W : jrun (prim_reg c2r) (name_reg c2r) c2r false th j true args = Some rs -> mokw ms args -> mk_run j true ms <> None -> valid n (tight th) args -> cstatic_run j true (map (@aval R) args) -> tracks n args W ->
  (exists P, (forall i, i < n -> near (fun t => plain_run j true (W i t) = Some (P i t))) /\ tracks n rs P) /\ plain_run j true (map (@aval R) args) = Some (map (@aval R) rs) /\ valid n (tight th) rs.
Proof.
  intros H HM HMk HV HS HT. destruct (mk_run j true ms) as [ms'|] eqn:Ek; [|congruence].
  destruct (@marked_good c2r th n (tight th) (fun _ => I) cstatic_prim (fun _ => True) (fun body _ _ _ => shape_only_prog body) cstatic_prims (@static_customs c2r th n Hn) (@tight_ext th) (fun j0 nc nk a S0 _ => @shape_scan c2r th j0 nc nk a S0) j ms ms' args HM Ek HV HS) as [G1 G2]. split; [|exact (G2 rs H)].
  destruct (@both_sound c2r th n (tight th) (fun _ => I) _ _ (fun body _ _ _ => shape_only_prog body) (@tight_ext th) cstatic_prims (@static_customs c2r th n Hn) (fun j0 nc nk a _ S0 => @shape_scan c2r th j0 nc nk a S0) j true args rs W H (proj1 HV) G1 HT) as (P & P1 & P2 & _). exists P. auto.
Qed.
End Prog.
Local Notation fwd c2r := (forward_laplacian (prim_reg c2r) (name_reg c2r) c2r).
(* specification: no function of complex arrays is applied to an array of real numbers (CxMarks.v); the inputs are real arrays *)
Definition typed_complex (j : @jaxpr R prim) : Prop := mk_run j true (map (fun _ => false) (j_ivs j)) <> None.
Lemma mokw_falses {X} (l : list X) args : mokw (map (fun _ => false) l) args.
Proof. intros i Hi. exfalso. revert i Hi. induction l as [|x l IH]; intros [|i]; cbn; try discriminate. apply IH. Qed.
Theorem forward_cstatic c2r t j ws xs rs : 0 < total (map (@sh R) xs) -> wts_ok ws xs -> smallj j -> typed_complex j -> cstatic_run j true xs ->
  fwd c2r t j ws (map (@AX R) xs) = Some rs -> exact_at (plain_run j true) xs (coord_weight ws xs) rs /\ map (@aval R) rs = match plain_run j true xs with Some ys => ys | None => [] end /\
  forall a, In (AL a) rs -> awf (total (map (@sh R) xs)) a /\ jrow1 (ljac a).
Proof.
  intros Hn HW HS HM HR H. unfold forward_laplacian in H. cbv zeta in H. set (th := threshold_of t (map (fun v => prod (sh (aval v))) (map (@AX R) xs))) in *.
  rewrite init_plain in H. rewrite jrun_frees_nothing in H by exact HS.
  assert (HR' : cstatic_run j true (map (@aval R) (seeds (0 <? th)%Z ws xs))) by (rewrite seeds_values; exact HR).
  destruct (@run_cstatic c2r th _ Hn j _ _ rs _ H (mokw_falses (j_ivs j) _) HM (@seeds_tight th ws xs HW) HR' (@seed_tracks (0 <? th)%Z ws xs HW)) as ((P & P1 & P2) & P3 & [P4 P5]). split; [apply (@tracks_exact _ xs _ rs P Hn P1 P2)|]. rewrite seeds_values in P3. rewrite P3. split; [reflexivity|]. intros a Ha. exact (P5 _ Ha).
Qed.
(* static programs without complex arrays are among them *)
Lemma static_is_cstatic k xs : static_prim k xs -> cstatic_prim k xs.
Proof. destruct k; auto. intros []. Qed.
(* composition: the second program takes the outputs of the first, marked as the first program leaves them *)
Theorem compose_cstatic c2r t t2 f g ms ws ws2 xs rs rs2 : 0 < total (map (@sh R) xs) -> wts_ok ws xs -> smallj f -> smallj g ->
  mk_run f true (map (fun _ => false) (j_ivs f)) = Some ms -> mk_run g true ms <> None ->
  cstatic_run f true xs -> fwd c2r t f ws (map (@AX R) xs) = Some rs -> existsb (@is_al R) rs = true -> (th_of t2 rs <= th_of t (map (@AX R) xs))%Z ->
  (forall ys, plain_run f true xs = Some ys -> cstatic_run g true ys) -> fwd c2r t2 g ws2 rs = Some rs2 -> exact_at (then_ f g) xs (coord_weight ws xs) rs2.
Proof.
  intros Hn HW HS HS2 HMf HMg HR H He Hle HR2 H2. unfold forward_laplacian in H, H2. cbv zeta in H, H2. change (threshold_of t (map (fun v => prod (sh (aval v))) (map (@AX R) xs))) with (th_of t (map (@AX R) xs)) in H. change (threshold_of t2 (map (fun v => prod (sh (aval v))) rs)) with (th_of t2 rs) in H2.
  set (th := th_of t (map (@AX R) xs)) in *. rewrite init_plain in H. rewrite jrun_frees_nothing in H by exact HS.
  assert (HR' : cstatic_run f true (map (@aval R) (seeds (0 <? th)%Z ws xs))) by (rewrite seeds_values; exact HR).
  destruct (@run_cstatic c2r th _ Hn f _ _ rs _ H (mokw_falses (j_ivs f) _) ltac:(rewrite HMf; discriminate) (@seeds_tight th ws xs HW) HR' (@seed_tracks (0 <? th)%Z ws xs HW)) as ((P & P1 & P2) & P3 & [P4 P5]). rewrite seeds_values in P3.
  pose proof (@mk_run_ok c2r th f true _ ms _ rs (mokw_falses (j_ivs f) _) HMf H) as [_ HMr].
  unfold init_state in H2. rewrite He in H2. rewrite jrun_frees_nothing in H2 by exact HS2.
  destruct (@run_cstatic c2r (th_of t2 rs) _ Hn g ms rs rs2 P H2 HMr HMg (conj (tight_le Hle P4) P5) (HR2 _ P3) P2) as ((Q & Q1 & Q2) & _).
  apply (@tracks_exact _ xs _ rs2 Q Hn (@near_then _ f g xs _ P Q P1 Q1) Q2).
Qed.
