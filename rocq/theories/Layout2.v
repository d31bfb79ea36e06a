(* Layout2.v : shapes and sparsity patterns do not depend on values: second-order part, wrapper, rules, interpreter. *)
From Verif Require Export Layout Slog FwdLapl.
Set Implicit Arguments.

Lemma take_layout X d k (a b : nd X) : sn a b -> sn (take d k a) (take d k b).
Proof. unfold sn. cbn. intros ->. reflexivity. Qed.
Lemma slice_layout X sq : forall b (x y : nd X), sn x y -> sn (slice_seq sq b x) (slice_seq sq b y).
Proof.
  induction sq as [|o sq IH]; intros b x y H; [exact H|]. destruct o as [d|], b as [|j b]; cbn [slice_seq]; auto. apply IH. apply take_layout. exact H.
Qed.
Lemma squeeze_layout X axes (x y : nd X) : sn x y -> sn (squeeze axes x) (squeeze axes y).
Proof. unfold sn, squeeze, ndim. cbn [sh]. intros ->. reflexivity. Qed.
Lemma reshape_layout X s (x y : nd X) : sn (reshape s x) (reshape s y).
Proof. reflexivity. Qed.
Lemma gather_layout X off sx nb locs (x y : nd X) : sn x y -> sn (gather_lead off sx nb locs x) (gather_lead off sx nb locs y).
Proof. unfold sn, gather_lead. intros H. rewrite H. destruct (existsb _ _); reflexivity. Qed.

Section Layout2.
Context {A : Type} {RA : CRing A}.
Open Scope cr_scope.

Lemma reduced_layout (js ks : list (jac A)) idx : Forall2 sj js ks -> orel (Forall2 sn) (get_reduced_jacobians js idx) (get_reduced_jacobians ks idx).
Proof.
  intros H. unfold get_reduced_jacobians. destruct idx as [o|].
  - destruct (Nat.eqb (rows o) 0); [exact I|]. eapply orel_bind; [apply orel_sequence; apply (R2_map _ _ _ H); intros x y Hx; exact (construct_layout o Hx)|].
    intros l m Hl. apply (R2_map _ _ _ Hl). intros x y Hx. unfold sn. cbn. rewrite Hx. reflexivity.
  - eapply orel_bind; [apply orel_sequence; apply (R2_map _ _ _ H); intros x y Hx; exact (dense_array_layout Hx)|].
    intros l m Hl. apply (R2_map _ _ _ (extend_layout Hl)). intros x y Hx. unfold sn. cbn. rewrite (sn_rows Hx), Hx. reflexivity.
Qed.
Lemma jacs_layout (args args' : list (lapl A)) : Forall2 sl args args' -> Forall2 sj (map (@ljac A) args) (map (@ljac A) args').
Proof. intros H. apply (R2_map _ _ _ H). intros x y Hx. apply Hx. Qed.
Lemma general_layout f f' c2r (args args' : list (lapl A)) idx : so f f' -> Forall2 sl args args' -> orel sn (general_jhj f c2r args idx) (general_jhj f' c2r args' idx).
Proof.
  intros Hf H. unfold general_jhj. eapply orel_bind; [apply reduced_layout; apply jacs_layout; exact H|]. intros l m Hl. cbn [orel]. apply (Hf _ _ (xs_layout H)).
Qed.
Lemma einsum2_layout (x x' y y' : nd A) : sn x x' -> sn y y' -> orel (fun _ _ => True) (einsum2 x y) (einsum2 x' y').
Proof. unfold sn, einsum2. intros -> ->. destruct (bshape2 _ _); exact I. Qed.
Lemma two_reduced (a a' b b' : jac A) idx : sj a a' -> sj b b' ->
  orel (fun l m => (exists x y x' y', l = [x; y] /\ m = [x'; y'] /\ sn x x' /\ sn y y')) (get_reduced_jacobians [a; b] idx) (get_reduced_jacobians [a'; b'] idx).
Proof.
  intros H1 H2. assert (H : Forall2 sj [a; b] [a'; b']) by auto. pose proof (reduced_layout idx H) as HR.
  assert (HL : forall js l, get_reduced_jacobians js idx = Some l -> length l = length js).
  { clear. intros js l E. unfold get_reduced_jacobians in E.
    assert (SL : forall X (u : list (option X)) v, sequence u = Some v -> length v = length u).
    { clear. induction u as [|o u IH]; intros v E; cbn in E; [injection E as <-; reflexivity|]. destruct o; [|discriminate]. cbn [bind] in E. destruct (sequence u) as [w|]; [|discriminate]. cbn [bind] in E. injection E as <-. cbn. f_equal. auto. }
    assert (EL : forall v : list (nd A), length (extend_jacobians v) = length v).
    { clear. intros v. unfold extend_jacobians. destruct v as [|? [|? ?]]; [reflexivity|reflexivity|]. destruct (forallb _ _); [reflexivity|apply map_length]. }
    destruct idx as [o|].
    - destruct (Nat.eqb _ 0); [discriminate|]. destruct (sequence _) as [w|] eqn:Es; [|discriminate]. cbn [bind] in E. injection E as <-. rewrite map_length, (SL _ _ _ Es), map_length. reflexivity.
    - destruct (sequence _) as [w|] eqn:Es; [|discriminate]. cbn [bind] in E. injection E as <-. rewrite map_length, EL, (SL _ _ _ Es), map_length. reflexivity. }
  destruct (get_reduced_jacobians [a; b] idx) as [l|] eqn:E; destruct (get_reduced_jacobians [a'; b'] idx) as [m|] eqn:E'; cbn in HR |- *; auto.
  pose proof (HL _ _ E) as L1. destruct HR as [|x x' l m Hx HF]; [discriminate|]. destruct HF as [|y y' l m Hy HF]; [discriminate|]. destruct HF; [|discriminate]. exists x, y, x', y'. auto.
Qed.
Lemma trace_layout (a a' b b' : jac A) idx : sj a a' -> sj b b' -> orel (fun _ _ => True) (trace_jac_jacT a b idx) (trace_jac_jacT a' b' idx).
Proof.
  intros H1 H2. unfold trace_jac_jacT. eapply orel_bind; [apply two_reduced; [exact H1|exact H2]|]. intros l m (x & y & x' & y' & E & E' & Hx & Hy). subst l m. apply einsum2_layout; auto.
Qed.
Lemma matmul_layout (x x' y y' : nd A) : sn x x' -> sn y y' -> orel sn (matmul x y) (matmul x' y').
Proof.
  unfold sn, matmul. intros -> ->. destruct (sh x') as [|m [|k [|? ?]]]; try exact I. destruct (sh y') as [|k' [|n [|? ?]]]; try exact I. destruct (Nat.eqb k k'); cbn; auto.
Qed.
Lemma dot_layout f f' (args args' : list (lapl A)) idx : so f f' -> Forall2 sl args args' -> orel sn (dot_jhj f args idx) (dot_jhj f' args' idx).
Proof.
  intros Hf H. pose proof (Hf _ _ (xs_layout H)) as HS. unfold dot_jhj. destruct H as [|a a' l m Ha HF]; [exact I|]. destruct HF as [|b b' l m Hb HF]; [exact I|]. destruct HF; [|exact I].
  eapply orel_bind; [apply trace_layout; [apply Ha|apply Hb]|]. intros t t' _. unfold sn in HS. rewrite HS. destruct (Nat.eqb _ 1); cbn; reflexivity.
Qed.
Lemma off_diag_layout f f' (args args' : list (lapl A)) idx : so f f' -> Forall2 sl args args' -> orel sn (off_diag_jhj f args idx) (off_diag_jhj f' args' idx).
Proof.
  intros Hf H. pose proof (Hf _ _ (xs_layout H)) as HS. unfold off_diag_jhj. destruct H as [|a a' l m Ha HF]; [exact I|]. destruct HF as [|b b' l m Hb HF]; [exact I|]. destruct HF; [|exact I].
  eapply (@orel_bind _ _ _ _ sn).
  - unfold jac_jacT. eapply orel_bind; [apply two_reduced; [apply Ha|apply Hb]|]. intros l m (x & y & x' & y' & E & E' & Hx & Hy). subst l m. apply matmul_layout; [exact Hx|apply sn_transpose; exact Hy].
  - intros m m' Hm. destruct Ha as (Ha & _), Hb as (Hb & _). unfold sn in *. rewrite Ha, Hb, Hm. destruct (bshape2 _ _); cbn; auto.
Qed.
Lemma uidx_layout (J K : jac A) : sj J K -> unique_idx J = unique_idx K.
Proof. intros [H1 H2]. unfold unique_idx. rewrite H2. unfold rows. rewrite H1. reflexivity. Qed.
Lemma find_layout (args args' : list (lapl A)) axs fl th : Forall2 sl args args' -> find_out_idx args axs fl th = find_out_idx args' axs fl th.
Proof.
  intros H. unfold find_out_idx. rewrite (any_weak_layout H), (masks_layout H).
  assert (E : map (fun a => length (filter (fun z => (0 <=? z)%Z) (unique_idx (ljac a)))) args = map (fun a => length (filter (fun z => (0 <=? z)%Z) (unique_idx (ljac a)))) args').
  { apply (R2_map_eq _ _ H). intros x y Hx. rewrite (uidx_layout (proj1 (proj2 Hx))). reflexivity. }
  rewrite E. reflexivity.
Qed.
Lemma gather_lapl_layout nb locs (a b : lapl A) : sl a b -> sl (gather_lapl nb locs a) (gather_lapl nb locs b).
Proof.
  intros (H1 & H2 & H3). pose proof H1 as E. unfold sn in E. unfold gather_lapl. cbn zeta. rewrite E. split; [|split]; cbn [lx ljac llap].
  - apply gather_layout. exact H1.
  - split; cbn [jdata jidx]; [|rewrite (proj2 H2); reflexivity]. apply gather_layout. apply H2.
  - apply gather_layout. exact H3.
Qed.
(* a custom rule for the second-order term returns an array whose shape depends on the shapes only *)
Definition scu (cu : custom_rule A) : Prop := forall args args' ex ex' mg idx, natural mg -> Forall2 sl args args' -> Forall2 sn ex ex' -> orel sn (cu args ex mg idx) (cu args' ex' mg idx).
(* relation: custom rules keep layouts *)
Definition scuo (cu : option (custom_rule A)) : Prop := match cu with Some c => scu c | None => True end.
Lemma hess_layout f f' c2r fl cu mg d (args args' : list (lapl A)) ex ex' idx : natural mg -> so f f' -> scuo cu -> Forall2 sl args args' -> Forall2 sn ex ex' ->
  orel sn (hess_transform f c2r fl cu mg d args ex idx) (hess_transform f' c2r fl cu mg d args' ex' idx).
Proof.
  intros N Hf Hc H He. unfold hess_transform. set (idx' := if has SPARSE_JHJ fl then _ else _). destruct cu as [cu|]; [apply Hc; auto|].
  assert (Hm : so (merged f mg (length args) ex) (merged f' mg (length args') ex')) by (rewrite (R2_len H); apply merged_layout; auto).
  destruct (has MULTIPLICATION fl); [apply dot_layout; auto|]. destruct (has LINEAR_IN_ONE fl); [apply off_diag_layout|apply general_layout]; auto.
Qed.
Lemma leaves_layout (args args' : list (lapl A)) axs ex ex' eaxs : Forall2 sl args args' -> Forall2 sn ex ex' -> leaves_of args axs ex eaxs = leaves_of args' axs ex' eaxs.
Proof.
  intros H He. unfold leaves_of. rewrite (sn_map_sh He). f_equal. f_equal. apply (R2_map_eq _ _ H). intros x y Hx. apply Hx.
Qed.
Lemma R2_map2_same {X X' Z Z' W} (P : X -> X' -> Prop) (T : Z -> Z' -> Prop) (f : X -> W -> Z) (g : X' -> W -> Z') l l' (m : list W) :
  Forall2 P l l' -> (forall x x' w, P x x' -> T (f x w) (g x' w)) -> Forall2 T (map2 f l m) (map2 g l' m).
Proof. intros H. revert m. induction H; intros [|w m] K; cbn; constructor; auto. Qed.
Lemma batched_layout f f' c2r fl cu mg d (args args' : list (lapl A)) axs ex ex' eaxs idx : natural mg -> so f f' -> scuo cu -> Forall2 sl args args' -> Forall2 sn ex ex' ->
  orel sn (batched_eval f c2r fl cu mg d args axs ex eaxs idx) (batched_eval f' c2r fl cu mg d args' axs ex' eaxs idx).
Proof.
  intros N Hf Hc H He. unfold batched_eval. rewrite (leaves_layout axs eaxs H He). set (leaves := leaves_of _ _ _ _). apply orel_eq; [reflexivity|]. intros brd.
  set (ki := keep_idx leaves brd). set (kb := permute ki brd). destruct (match idx with Some _ => _ | None => _ end); [exact I|].
  eapply (@orel_bind _ _ _ _ (Forall2 sn)).
  - apply orel_sequence. apply (R2_map (P := eq) _ _ _ (@R2_refl _ eq (allix kb) (fun x => eq_refl))). intros b b' <-. apply hess_layout; auto.
    + apply (@R2_map2_same _ _ _ _ _ sl sl _ _ _ _ axs H). intros a a' ax Ha. pose proof Ha as (H1 & H2 & H3). unfold slice_lapl. unfold sn in H1. rewrite H1, (proj1 H2), (proj2 H2).
      split; [|split]; cbn [lx ljac llap].
      * apply slice_layout. apply squeeze_layout. exact H1.
      * split; cbn [jdata jidx]; [|reflexivity]. apply slice_layout. apply squeeze_layout. apply H2.
      * apply slice_layout. apply squeeze_layout. exact H3.
    + apply (@R2_map2_same _ _ _ _ _ sn sn _ _ _ _ eaxs He). intros e e' ax Hx. pose proof Hx as Hx'. unfold sn in Hx'. rewrite Hx'. apply slice_layout. apply squeeze_layout. exact Hx.
  - intros rs rs' Hr. unfold sn. cbn. f_equal. destruct Hr; [reflexivity|]. cbn. assumption.
Qed.
Lemma args_dense_layout (args args' : list (lapl A)) : Forall2 sl args args' -> orel (Forall2 sl) (args_dense args) (args_dense args').
Proof.
  intros H. apply orel_sequence. apply (R2_map _ _ _ H). intros x y (H1 & H2 & H3). eapply orel_bind; [apply as_dense_layout; exact H2|]. intros j j' Hj. split; [|split]; auto.
Qed.
Lemma ndims_layout (args args' : list (lapl A)) : Forall2 sl args args' -> map (fun a => [(ndim (lx a) - 1)%nat]) args = map (fun a => [(ndim (lx a) - 1)%nat]) args'.
Proof. intros H. apply (R2_map_eq _ _ H). intros x y (H1 & _). unfold ndim. rewrite H1. reflexivity. Qed.
Lemma vmapped_layout f c2r fl cu ex ex' axs eaxs mg th (args args' : list (lapl A)) : natural mg -> so f f -> scuo cu -> Forall2 sl args args' -> Forall2 sn ex ex' ->
  orel sn (vmapped_jhj f c2r fl cu ex axs eaxs mg th args) (vmapped_jhj f c2r fl cu ex' axs eaxs mg th args').
Proof.
  intros N Hf Hc H He. unfold vmapped_jhj. assert (ES : sh (o_fwd f (mg _ (xs_of args) ex)) = sh (o_fwd f (mg _ (xs_of args') ex'))) by (apply Hf; apply N; auto using xs_layout).
  rewrite ES. set (s := sh (o_fwd f _)). eapply orel_eq; [apply find_layout; exact H|]. intros [oi d].
  assert (HU : forall r r' : nd A, sn r r' -> orel sn (if Nat.eqb (prod (sh r)) (prod s) then Some (reshape s r) else None) (if Nat.eqb (prod (sh r')) (prod s) then Some (reshape s r') else None)).
  { intros r r' Hr. unfold sn in Hr. rewrite Hr. destruct (Nat.eqb _ _); cbn; auto. reflexivity. }
  eapply (@orel_bind _ _ _ _ (fun t t' : list (lapl A) * option (nd Z) => Forall2 sl (fst t) (fst t') /\ snd t = snd t')).
  - destruct (d && negb _); [|cbn; auto]. eapply orel_bind; [apply args_dense_layout; exact H|]. intros x y Hx. cbn. auto.
  - intros [a1 o1] [a1' o1'] [Ha E]. cbn [fst snd] in Ha, E. subst o1'. destruct o1 as [o|].
    + destruct (Nat.eqb (rows o) 0); [apply sn_refl|]. destruct (if has DOT_PRODUCT fl && _ then _ else _) as [[locs|]|].
      * assert (EX : existsb (fun a : lapl A => (ndim (lx a) <? ndim o - 1)%nat) a1 = existsb (fun a : lapl A => (ndim (lx a) <? ndim o - 1)%nat) a1').
        { clear -Ha. induction Ha as [|x y l m Hx HF IH]; cbn; auto. rewrite IH. destruct Hx as (Hx & _). unfold ndim at 1 3. rewrite Hx. reflexivity. }
        rewrite EX. destruct (existsb _ a1'); [exact I|].
        assert (HG : Forall2 sl (map (gather_lapl (ndim o - 1) locs) a1) (map (gather_lapl (ndim o - 1) locs) a1')) by (apply (R2_map _ _ _ Ha); intros; apply gather_lapl_layout; auto).
        rewrite (ndims_layout HG). eapply orel_bind; [apply batched_layout; auto|]. intros r r' Hr. eapply (@orel_bind _ _ _ _ sn).
        -- unfold unmask. unfold sn in Hr. rewrite Hr. destruct (negb _); [exact I|]. destruct (bshape2 _ _); [|exact I]. destruct (sheq _ _); [|exact I]. reflexivity.
        -- exact HU.
      * rewrite (ndims_layout Ha). eapply orel_bind; [apply batched_layout; auto|exact HU].
      * eapply orel_bind; [apply batched_layout; auto|exact HU].
    + rewrite (ndims_layout Ha). eapply orel_bind; [apply batched_layout; auto|exact HU].
Qed.
Lemma jhj_layout f c2r fl cu ex ex' axs eaxs mg th (args args' : list (lapl A)) : natural mg -> so f f -> scuo cu -> Forall2 sl args args' -> Forall2 sn ex ex' ->
  orel sn (jhj_trace f c2r fl cu ex axs eaxs mg th args) (jhj_trace f c2r fl cu ex' axs eaxs mg th args').
Proof.
  intros N Hf Hc H He. unfold jhj_trace. rewrite (R2_len H), (R2_len He). destruct (has LINEAR fl); [apply sn_refl|]. destruct (_ && _); [apply sn_refl|]. destruct (_ && _ && _); [apply sn_refl|]. apply vmapped_layout; auto.
Qed.

(* ---- wrapped functions ---- *)
(* the same value up to the numbers: same kind, shapes, Jacobian layout and index tensor *)
Definition sa (u v : arg A) : Prop := match u, v with AL a, AL b => sl a b | AX x, AX y => sn x y | _, _ => False end.
Lemma sa_refl v : sa v v.
Proof. destruct v; cbn; repeat split; reflexivity. Qed.
Lemma sa_aval u v : sa u v -> sn (aval u) (aval v).
Proof. destruct u, v; cbn; try contradiction; auto. intros (H & _). exact H. Qed.
Lemma sa_is_al u v : sa u v -> is_al u = is_al v.
Proof. destruct u, v; cbn; try contradiction; auto. Qed.
Lemma als_layout args args' : Forall2 sa args args' -> Forall2 sl (als args) (als args').
Proof.
  induction 1 as [|u v l m Hu HF IH]; [constructor|]. destruct u, v; cbn in Hu; try contradiction; [|exact IH].
  change (als (AL a :: l)) with (a :: als l). change (als (AL a0 :: m)) with (a0 :: als m). constructor; auto.
Qed.
Lemma exs_layout args args' : Forall2 sa args args' -> Forall2 sn (exs args) (exs args').
Proof.
  induction 1 as [|u v l m Hu HF IH]; [constructor|]. destruct u, v; cbn in Hu; try contradiction; [exact IH|].
  change (exs (AX x :: l)) with (x :: exs l). change (exs (AX x0 :: m)) with (x0 :: exs m). constructor; auto.
Qed.
Lemma mask_layout args args' : Forall2 sa args args' -> mask_of args = mask_of args'.
Proof. intros H. apply (R2_map_eq _ _ H). exact sa_is_al. Qed.
(* relation: rules keep layouts *)
Definition srule (R : rule A) : Prop := so (f_op (r_fn R)) (f_op (r_fn R)) /\ scuo (r_custom R).
Theorem wrap_layout R c2r th args args' : srule R -> Forall2 sa args args' -> orel sa (wrap_fl R c2r th args) (wrap_fl R c2r th args').
Proof.
  intros [HR HC] H. unfold wrap_fl. pose proof (als_layout H) as HA. pose proof (exs_layout H) as HE. rewrite (mask_layout H). set (mg := merge_of _). assert (N : natural mg) by apply natural_merge_of.
  assert (E1 : map (fun a : lapl A => canon_axes (ndim (lx a)) (r_axes R)) (als args) = map (fun a => canon_axes (ndim (lx a)) (r_axes R)) (als args')) by (apply (R2_map_eq _ _ HA); intros x y (Hx & _); unfold ndim; rewrite Hx; reflexivity).
  assert (E2 : map (fun x : nd A => canon_axes (ndim x) (r_axes R)) (exs args) = map (fun x => canon_axes (ndim x) (r_axes R)) (exs args')) by (apply (R2_map_eq _ _ HE); intros x y Hx; unfold ndim; rewrite Hx; reflexivity).
  rewrite E1, E2. apply orel_eq; [reflexivity|]. intros axs. apply orel_eq; [reflexivity|]. intros eaxs.
  assert (G : orel sa (let* t := jvp_fn (r_fn R) mg (exs args) th (r_fl R) (r_axes R) (als args) in let '(y, g, l) := t in
        let* h := jhj_trace (f_op (r_fn R)) c2r (r_fl R) (r_custom R) (exs args) axs eaxs mg th (als args) in let* l2 := bin radd l h in Some (if r_float R then AL (Lapl y g l2) else AX y))
      (let* t := jvp_fn (r_fn R) mg (exs args') th (r_fl R) (r_axes R) (als args') in let '(y, g, l) := t in
        let* h := jhj_trace (f_op (r_fn R)) c2r (r_fl R) (r_custom R) (exs args') axs eaxs mg th (als args') in let* l2 := bin radd l h in Some (if r_float R then AL (Lapl y g l2) else AX y))).
  { eapply orel_bind; [apply jvp_layout; [exact N|exact HR|exact HA|exact HE]|]. intros [[y g] l] [[y' g'] l'] (T1 & T2 & T3).
    eapply orel_bind; [apply jhj_layout; [exact N|exact HR|exact HC|exact HA|exact HE]|]. intros h h' Hh. eapply orel_bind; [apply bin_layout; [exact T3|exact Hh]|]. intros l2 l2' Hl.
    cbn. destruct (r_float R); [|exact T1]. split; [exact T1|]. split; [exact T2|exact Hl]. }
  assert (P : Forall2 sl (als args) (als args')) by exact HA. destruct P; [|exact G]. apply HR. apply N; [constructor|exact HE].
Qed.

(* ---- the rules of the registry ---- *)
Lemma so_ew phi d h : so (@ew_op A RA phi d h) (ew_op phi d h).
Proof. intros xs xs' H. unfold sn. cbn. unfold ew_shape. rewrite (sn_map_sh H). reflexivity. Qed.
Lemma so_nth xs xs' k : Forall2 sn xs xs' -> sn (nth k xs nd0) (@nth (nd A) k xs' nd0).
Proof. intros H. apply R2_nth; auto. apply sn_refl. Qed.
Lemma so_sum axes : so (@op_sum A RA axes) (op_sum axes).
Proof. intros xs xs' H. apply np_sum_layout. apply so_nth. exact H. Qed.
Lemma so_dot D : so (@op_dot A RA D) (op_dot D).
Proof. intros xs xs' H. unfold sn. cbn [op_dot o_fwd sh]. rewrite !(so_nth _ H). reflexivity. Qed.
Lemma so_dotlast : so (@op_dotlast A RA) op_dotlast.
Proof.
  intros xs xs' H. unfold sn. cbn [op_dotlast o_fwd sh]. replace (map (fun x : nd A => removelast (sh x)) xs) with (map (fun x : nd A => removelast (sh x)) xs'); [reflexivity|].
  symmetry. apply (R2_map_eq _ _ H). intros x y ->. reflexivity.
Qed.
Lemma srule_plain F fl ax : so (f_op F) (f_op F) -> forall fx, srule (Rule F fl ax None fx).
Proof. intros H fx. split; [exact H|exact I]. Qed.
Lemma index_srule g ok filled : srule (@index_rule A RA g ok filled).
Proof. apply srule_plain. apply iop_layout. Qed.
Lemma promote_layout c2r th k u v : sa u v -> orel sa (promote c2r th k u) (promote c2r th k v).
Proof.
  intros H. destruct k; [exact H|]. unfold promote. pose proof (@sa_aval _ _ H) as E. unfold sn in E. rewrite E. apply wrap_layout; [apply index_srule|auto].
Qed.
Lemma mul_sum_layout c2r th axes u u' v v' : sa u u' -> sa v v' -> orel sa (mul_sum c2r th axes u v) (mul_sum c2r th axes u' v').
Proof.
  intros Hu Hv. unfold mul_sum. pose proof (@sa_aval _ _ Hu) as Eu. pose proof (@sa_aval _ _ Hv) as Ev. unfold sn in Eu, Ev. unfold ndim. rewrite Eu, Ev.
  eapply orel_bind; [apply promote_layout; exact Hu|]. intros p p' Hp. eapply orel_bind; [apply promote_layout; exact Hv|]. intros q q' Hq.
  eapply orel_bind; [apply wrap_layout; [apply srule_plain; apply so_ew|auto]|]. intros m m' Hm. pose proof (@sa_aval _ _ Hm) as Em. unfold sn in Em. rewrite Em. apply wrap_layout; [apply srule_plain; apply so_sum|auto].
Qed.
Theorem dot_general_layout c2r th D u u' v v' : sa u u' -> sa v v' -> orel sa (dot_general c2r th D u v) (dot_general c2r th D u' v').
Proof.
  intros Hu Hv. unfold dot_general. pose proof (@sa_aval _ _ Hu) as Eu. pose proof (@sa_aval _ _ Hv) as Ev. unfold sn in Eu, Ev. rewrite (@sa_is_al _ _ Hu), (@sa_is_al _ _ Hv).
  destruct (negb _ && _). { unfold orel, sa. apply so_dot. repeat constructor; assumption. }
  rewrite Eu, Ev. eapply orel_bind; [apply wrap_layout; [apply index_srule|auto]|]. intros l l' Hl. eapply orel_bind; [apply wrap_layout; [apply index_srule|auto]|]. intros r r' Hr.
  pose proof (@sa_aval _ _ Hl) as El. pose proof (@sa_aval _ _ Hr) as Er. unfold sn in El, Er. rewrite El, Er. apply orel_eq; [reflexivity|]. intros inter.
  assert (ES : forall w w', sa w w' -> @sparse_arg A w = sparse_arg w').
  { intros w w' Hw. destruct w, w'; cbn in Hw |- *; try contradiction; auto. apply sj_weak. apply Hw. }
  rewrite (ES _ _ Hu), (ES _ _ Hv). destruct (_ && _); [|apply wrap_layout; [apply srule_plain; apply so_dotlast|auto]]. destruct (special _ _ _); apply mul_sum_layout; auto.
Qed.
Lemma div_layout inv : scu (@div_jhj A RA inv).
Proof.
  intros args args' ex ex' mg idx N H He. unfold div_jhj. pose proof (N _ _ _ _ _ _ _ (xs_layout H) He) as HM.
  destruct HM as [|x x' l m Hx HM]; [exact I|]. destruct HM as [|y y' l m Hy HM]; [exact I|]. destruct HM; [|exact I]. unfold sn in Hx, Hy. rewrite Hx, Hy. destruct (negb _); [exact I|].
  destruct H as [|a a' l m Ha HF]; [exact I|]. destruct HF as [|b b' l m Hb HF].
  - eapply orel_bind; [apply trace_layout; apply Ha|]. intros t t' _. reflexivity.
  - destruct HF; [|exact I]. eapply orel_bind; [apply two_reduced; [apply Ha|apply Hb]|]. intros l m (p & q & p' & q' & E & E' & Hp & Hq). subst l m.
    eapply orel_bind; [apply matmul_layout; [apply sn_transpose; exact Hq|exact Hq]|]. intros j j' Hj. eapply orel_bind; [apply matmul_layout; [apply sn_transpose; exact Hp|exact Hq]|]. intros k k' Hk.
    apply bin_layout; assumption.
Qed.
Lemma so_logdet ld mi : so (@op_logdet A RA ld mi) (op_logdet ld mi).
Proof. intros xs xs' H. unfold sn. cbn. unfold lead, ndim. rewrite (so_nth 0 H). reflexivity. Qed.
Lemma slogdet_scu mi : scu (@slogdet_jhj A RA mi).
Proof.
  intros args args' ex ex' mg idx N H He. unfold slogdet_jhj. destruct H as [|a a' l m Ha HF]; [exact I|]. destruct HF; [|exact I]. eapply orel_bind; [apply construct_for_layout; apply Ha|]. intros d d' Hd.
  unfold sn. cbn. unfold lead, ndim. destruct Ha as (Ha & _). rewrite Ha. reflexivity.
Qed.
Theorem slogdet_layout sgn ld mi c2r th u v : (forall x y, sn x y -> sn (sgn x) (sgn y)) -> sa u v ->
  orel (fun r r' => sa (fst r) (fst r') /\ sa (snd r) (snd r')) (@slogdet_wrapper A RA sgn ld mi c2r th u) (slogdet_wrapper sgn ld mi c2r th v).
Proof.
  intros Hs H. unfold slogdet_wrapper. eapply orel_bind; [apply wrap_layout; [|constructor; [exact H|constructor]]|].
  - split; [apply so_logdet|apply slogdet_scu].
  - intros l l' Hl. cbn. split; [|exact Hl]. apply Hs. apply sa_aval. exact H.
Qed.
End Layout2.

(* ---- straight-line programs ---- *)
Section RunRel.
Context {V : Type} (P : V -> V -> Prop).
(* relation on environments *)
Definition senv (E E' : var -> option V) : Prop := forall v, orel P (E v) (E' v).
(* relation on states *)
Definition sst (s s' : @st V) : Prop := senv (env s) (env s') /\ cnt s = cnt s'.
(* relation on literals *)
Definition latom (a : atom V) : Prop := match a with ALit x => P x x | AVar _ => True end.
(* relation on equations *)
Definition linstr (e : instr V) : Prop := Forall latom (i_in e) /\ forall xs xs', Forall2 P xs xs' -> orel (Forall2 P) (i_step e xs) (i_step e xs').
Lemma senv_set E E' v o o' : senv E E' -> orel P o o' -> senv (vset E v o) (vset E' v o').
Proof. intros H Ho w. unfold vset. destruct (Nat.eqb w v); auto. Qed.
Lemma read_rel s s' a : sst s s' -> latom a -> orel (fun t t' => P (fst t) (fst t') /\ sst (snd t) (snd t')) (read s a) (read s' a).
Proof.
  intros [H1 H2] Ha. destruct a as [v|x]; cbn [read latom orel fst snd] in *; [|split; [exact Ha|split; auto]]. rewrite H2. pose proof (H1 v) as Hv. destruct (env s v), (env s' v); cbn in Hv; try contradiction; [|exact I].
  cbn. split; [exact Hv|]. destruct (Z.eqb _ 0); split; cbn; auto. apply senv_set; [exact H1|exact I].
Qed.
Lemma read_many_rel l : Forall latom l -> forall s s', sst s s' -> orel (fun t t' => Forall2 P (fst t) (fst t') /\ sst (snd t) (snd t')) (read_many s l) (read_many s' l).
Proof.
  induction 1 as [|a l Ha Hl IH]; intros s s' H; cbn [read_many]; [cbn; auto|]. pose proof (@read_rel s s' a H Ha) as HR. destruct (read s a) as [[x s1]|], (read s' a) as [[x' s1']|]; cbn in HR; try contradiction; [|exact I].
  destruct HR as [Hx H1]. specialize (IH _ _ H1). destruct (read_many s1 l) as [[xs s2]|], (read_many s1' l) as [[xs' s2']|]; cbn in IH; try contradiction; [|exact I]. cbn. destruct IH. auto.
Qed.
Lemma write_many_rel vs : forall xs xs' s s', Forall2 P xs xs' -> sst s s' -> orel sst (write_many s vs xs) (write_many s' vs xs').
Proof.
  induction vs as [|v vs IH]; intros xs xs' s s' Hx H; destruct Hx as [|x x' xs xs' Hx HF]; cbn [write_many]; try exact I; [exact H|]. apply IH; [exact HF|]. unfold write. destruct H as [H1 H2]. rewrite H2. destruct (0 <? _)%Z; split; cbn; auto. apply senv_set; auto.
Qed.
Lemma exec_rel es : Forall linstr es -> forall s s', sst s s' -> orel sst (exec s es) (exec s' es).
Proof.
  induction 1 as [|e es [He1 He2] Hes IH]; intros s s' H; cbn [exec]; [exact H|]. unfold exec1. pose proof (@read_many_rel _ He1 _ _ H) as HR.
  destruct (read_many s (i_in e)) as [[xs s1]|], (read_many s' (i_in e)) as [[xs' s1']|]; cbn in HR; try contradiction; [|exact I]. destruct HR as [Hx H1]. pose proof (He2 _ _ Hx) as HS.
  destruct (i_step e xs) as [ys|], (i_step e xs') as [ys'|]; cbn in HS; try contradiction; [|exact I]. pose proof (@write_many_rel (i_out e) _ _ _ _ HS H1) as HW.
  destruct (write_many s1 _ ys), (write_many s1' _ ys'); cbn in HW; try contradiction; [|exact I]. apply IH. exact HW.
Qed.
(* relation on code *)
Definition lcode (C : code V) : Prop := Forall linstr (c_eqns C) /\ Forall latom (c_outs C).
Lemma run_rel C cs cs' xs xs' : lcode C -> Forall2 P cs cs' -> Forall2 P xs xs' -> orel (Forall2 P) (run C cs xs) (run C cs' xs').
Proof.
  intros [H1 H2] Hc Hx. unfold run, init.
  assert (H0 : sst (St (fun _ => None) (counts C)) (St (fun _ => None) (counts C))) by (split; [intros v; exact I|reflexivity]). pose proof (@write_many_rel (c_consts C) _ _ _ _ Hc H0) as HW.
  destruct (write_many _ _ cs) as [s|], (write_many _ _ cs') as [s'|]; cbn in HW; try contradiction; [|exact I]. pose proof (@write_many_rel (c_ins C) _ _ _ _ Hx HW) as HI.
  destruct (write_many s _ xs) as [s1|], (write_many s' _ xs') as [s1'|]; cbn in HI; try contradiction; [|exact I]. pose proof (@exec_rel _ H1 _ _ HI) as HE.
  destruct (exec s1 _) as [s2|], (exec s1' _) as [s2'|]; cbn in HE; try contradiction; [|exact I]. pose proof (@read_many_rel _ H2 _ _ HE) as HR.
  destruct (read_many s2 _) as [[ys s3]|], (read_many s2' _) as [[ys' s3']|]; cbn in HR; try contradiction; [|exact I]. apply HR.
Qed.
Lemma read0_rel E E' l : Forall latom l -> senv E E' -> orel (Forall2 P) (read0_many E l) (read0_many E' l).
Proof.
  intros Hl H. induction Hl as [|a l Ha Hl IH]; cbn [read0_many]; [constructor|]. assert (HR : orel P (read0 E a) (read0 E' a)) by (destruct a; cbn; [apply H|exact Ha]).
  destruct (read0 E a), (read0 E' a); cbn in HR; try contradiction; [|exact I]. destruct (read0_many E l), (read0_many E' l); cbn in IH; try contradiction; [|exact I]. cbn. auto.
Qed.
Lemma write0_rel vs : forall xs xs' E E', Forall2 P xs xs' -> senv E E' -> orel senv (write0_many E vs xs) (write0_many E' vs xs').
Proof.
  induction vs as [|v vs IH]; intros xs xs' E E' Hx H; destruct Hx as [|x x' xs xs' Hx HF]; cbn [write0_many]; try exact I; [exact H|]. apply IH; [exact HF|]. apply senv_set; auto.
Qed.
Lemma exec0_rel es : Forall linstr es -> forall E E', senv E E' -> orel senv (exec0 E es) (exec0 E' es).
Proof.
  induction 1 as [|e es [He1 He2] Hes IH]; intros E E' H; cbn [exec0]; [exact H|]. unfold exec0_1. pose proof (@read0_rel _ _ _ He1 H) as HR.
  destruct (read0_many E (i_in e)) as [xs|], (read0_many E' (i_in e)) as [xs'|]; cbn in HR; try contradiction; [|exact I]. pose proof (He2 _ _ HR) as HS.
  destruct (i_step e xs) as [ys|], (i_step e xs') as [ys'|]; cbn in HS; try contradiction; [|exact I]. pose proof (@write0_rel (i_out e) _ _ _ _ HS H) as HW.
  destruct (write0_many E _ ys), (write0_many E' _ ys'); cbn in HW; try contradiction; [|exact I]. apply IH. exact HW.
Qed.
Lemma run0_rel C cs cs' xs xs' : lcode C -> Forall2 P cs cs' -> Forall2 P xs xs' -> orel (Forall2 P) (run0 C cs xs) (run0 C cs' xs').
Proof.
  intros [H1 H2] Hc Hx. unfold run0, init0. assert (H0 : senv (fun _ => None) (fun _ => None)) by (intros v; exact I). pose proof (@write0_rel (c_consts C) _ _ _ _ Hc H0) as HW.
  destruct (write0_many _ _ cs) as [s|], (write0_many _ _ cs') as [s'|]; cbn in HW; try contradiction; [|exact I]. pose proof (@write0_rel (c_ins C) _ _ _ _ Hx HW) as HI.
  destruct (write0_many s _ xs) as [s1|], (write0_many s' _ xs') as [s1'|]; cbn in HI; try contradiction; [|exact I]. pose proof (@exec0_rel _ H1 _ _ HI) as HE.
  destruct (exec0 s1 _) as [s2|], (exec0 s1' _) as [s2'|]; cbn in HE; try contradiction; [|exact I]. apply (@read0_rel _ _ _ H2 HE).
Qed.
End RunRel.
Lemma loop_rel {V} (P : V -> V -> Prop) step step' ts : (forall c c' t, Forall2 P c c' -> orel (fun r r' => Forall2 P (fst r) (fst r') /\ Forall2 P (snd r) (snd r')) (step c t) (step' c' t)) ->
  forall c c', Forall2 P c c' -> orel (fun r r' => Forall2 P (fst r) (fst r') /\ Forall2 (Forall2 P) (snd r) (snd r')) (loop step ts c) (@loop V step' ts c').
Proof.
  intros HS. induction ts as [|t ts IH]; intros c c' H; cbn [loop]; [cbn; auto|]. pose proof (HS _ _ t H) as H1. destruct (step c t) as [[d y]|], (step' c' t) as [[d' y']|]; cbn in H1; try contradiction; [|exact I].
  destruct H1 as [Hd Hy]. pose proof (IH _ _ Hd) as H2. destruct (loop step ts d) as [[e ys]|], (loop step' ts d') as [[e' ys']|]; cbn in H2; try contradiction; [|exact I]. cbn. destruct H2. auto.
Qed.
Lemma cols_rel {V} (P : V -> V -> Prop) d ys ys' : P d d -> Forall2 (Forall2 P) ys ys' -> Forall2 (Forall2 P) (cols d ys) (cols d ys').
Proof.
  intros Hd H. unfold cols. assert (E : length (hd [] ys) = length (hd [] ys')) by (destruct H as [|y y' ys ys' Hy HF]; [reflexivity|]; cbn; apply (R2_len Hy)). rewrite E.
  apply (R2_map (P := eq) _ _ _ (@R2_refl _ eq _ (fun x => eq_refl))). intros j j' <-. unfold col. apply (R2_map _ _ _ H). intros y y' Hy. apply R2_nth; auto.
Qed.
Lemma unorder_rel {V} (P : V -> V -> Prop) rv l m : Forall2 P l m -> Forall2 P (unorder rv l) (unorder rv m).
Proof. intros H. unfold unorder. destruct rv; auto using R2_rev. Qed.

(* ---- programs ---- *)
Section Prog.
Context {A : Type} {RA : CRing A} {K : Type}.
Context (reg : K -> option (@lrule A)) (nreg : nat -> option (@lrule A)) (c2r : bool).
(* a rule whose outputs (shapes, index tensors, and whether it raises) do not depend on the values of its arguments *)
Definition slr (r : @lrule A) : Prop := forall th args args', Forall2 sa args args' -> orel (Forall2 sa) (r th args) (r th args').
(* every primitive of the program computes output shapes from input shapes, and its registered rule (if any) behaves like that *)
Inductive sshape : @opk A K -> Prop :=
| ss_prim key fs : Forall (fun f => so f f) fs -> (forall r, reg key = Some r -> slr r) -> sshape (KPrim key fs)
| ss_custom fs : Forall (fun f => so f f) fs -> sshape (KCustom fs)
| ss_pjit name j : (forall k, In k (subops j) -> sshape k) -> sshape (KPjit name j)
| ss_scan nc nk T rv j : (forall k, In k (subops j) -> sshape k) -> sshape (KScan nc nk T rv j).
(* relation on jaxprs *)
Definition sshapej (j : @jaxpr A K) : Prop := forall k, In k (subops j) -> sshape k.
Lemma in_subops (j : @jaxpr A K) e : In e (j_es j) -> In (kind_of e) (subops j).
Proof. intros He. unfold subops. apply in_map_iff. exists e. split; [destruct e; reflexivity|exact He]. Qed.
Lemma latoms_plain (l : list (atom (nd A))) : Forall (latom sn) l.
Proof. apply Forall_forall. intros [v|x] _; cbn; auto. reflexivity. Qed.
Lemma latoms_arg (l : list (atom (nd A))) : Forall (latom (@sa A)) (map (@plain_atom A) l).
Proof. apply Forall_forall. intros a Ha. apply in_map_iff in Ha. destruct Ha as ([v|x] & <- & _); cbn; auto. reflexivity. Qed.
Lemma row_layout X (x y : nd X) t : sn x y -> sn (row x t) (row y t).
Proof. unfold sn. cbn. intros ->. reflexivity. Qed.
Lemma stackv_layout (l m : list (nd A)) : Forall2 sn l m -> sn (stackv l) (stackv m).
Proof. intros H. unfold sn. cbn. rewrite (R2_len H). f_equal. destruct H; [reflexivity|]. assumption. Qed.
Lemma plain_scan_eq nc nk T rv (j : @jaxpr A K) xs : plain_of (KScan nc nk T rv j) xs =
  if Nat.eqb T 0 then None else
    let cons := firstn nc xs in let carry := firstn nk (skipn nc xs) in let inp := skipn (nc + nk) xs in
    match loop (fun c t => match plain_run j false (cons ++ c ++ map (fun x => row x t) inp) with None => None | Some r => Some (firstn nk r, skipn nk r) end) (order T rv) carry with
    | None => None
    | Some (c, ys) => Some (c ++ map stackv (cols nd0 (unorder rv ys)))
    end.
Proof. reflexivity. Qed.
Lemma plain_layout k : sshape k -> forall xs xs', Forall2 sn xs xs' -> orel (Forall2 sn) (plain_of k xs) (plain_of k xs').
Proof.
  apply (@opk_all A K (fun k => sshape k -> forall xs xs', Forall2 sn xs xs' -> orel (Forall2 sn) (plain_of k xs) (plain_of k xs'))); clear k.
  - intros key fs H xs xs' Hx. inversion H as [? ? HF HK| | |]; subst. cbn. clear H HK. induction HF; cbn; constructor; auto.
  - intros fs H xs xs' Hx. inversion H as [|? HF| |]; subst. cbn. clear H. induction HF; cbn; constructor; auto.
  - intros name j IH H xs xs' Hx. inversion H as [| |? ? HF|]; subst. change (plain_of (KPjit name j) xs) with (plain_run j true xs). change (plain_of (KPjit name j) xs') with (plain_run j true xs').
    rewrite !plain_run_eq. apply run0_rel; [|apply R2_refl; reflexivity|exact Hx]. split; [|apply latoms_plain]. cbn [pcode_of c_eqns]. apply Forall_forall. intros e He. apply in_map_iff in He. destruct He as (q & <- & Hq).
    split; [apply latoms_plain|]. cbn [pinstr_of i_step]. intros ys ys' Hy. apply IH; auto using in_subops.
  - intros nc nk T rv j IH H xs xs' Hx. inversion H as [| | |? ? ? ? ? HF]; subst.
    assert (HR : forall ys ys', Forall2 sn ys ys' -> orel (Forall2 sn) (plain_run j false ys) (plain_run j false ys')).
    { intros ys ys' Hy. rewrite !plain_run_eq. apply run0_rel; [|constructor|exact Hy]. split; [|apply latoms_plain]. cbn [pcode_of c_eqns]. apply Forall_forall. intros e He. apply in_map_iff in He. destruct He as (q & <- & Hq).
      split; [apply latoms_plain|]. cbn [pinstr_of i_step]. intros zs zs' Hz. apply IH; auto using in_subops. }
    rewrite !plain_scan_eq. destruct (Nat.eqb T 0); [exact I|]. cbv zeta.
    match goal with |- orel _ match ?X with _ => _ end match ?Y with _ => _ end => assert (HL : orel (fun r r' => Forall2 sn (fst r) (fst r') /\ Forall2 (Forall2 sn) (snd r) (snd r')) X Y) end.
    { apply loop_rel; [|apply R2_firstn; apply R2_skipn; exact Hx]. intros c c' t Hc.
      assert (HB : Forall2 sn (firstn nc xs ++ c ++ map (fun x => row x t) (skipn (nc + nk) xs)) (firstn nc xs' ++ c' ++ map (fun x => row x t) (skipn (nc + nk) xs'))).
      { apply R2_app; [apply R2_firstn; exact Hx|]. apply R2_app; [exact Hc|]. apply (R2_map _ _ _ (R2_skipn Hx _)). intros; apply row_layout; assumption. }
      pose proof (HR _ _ HB) as H1. destruct (plain_run j false _) as [r|], (plain_run j false _) as [r'|]; cbn in H1; try contradiction; [|exact I]. cbn. split; [apply R2_firstn|apply R2_skipn]; exact H1. }
    destruct (loop _ _ _) as [[c ys]|], (loop _ _ _) as [[c' ys']|]; cbn in HL; try contradiction; [|exact I]. destruct HL as [H1 H2]. cbn [orel]. apply R2_app; [exact H1|].
    apply (R2_map _ _ _ (@cols_rel _ sn nd0 _ _ (@sn_refl _ nd0) (unorder_rel rv H2))). intros; apply stackv_layout; assumption.
Qed.
Lemma forallb_al (xs xs' : list (arg A)) : Forall2 sa xs xs' -> forallb (fun v => negb (is_al v)) xs = forallb (fun v => negb (is_al v)) xs'.
Proof. induction 1 as [|u v l m Hu HF IH]; cbn; auto. rewrite (@sa_is_al _ _ _ Hu), IH. reflexivity. Qed.
Lemma set_idx_layout (u u' v v' : arg A) : sa u u' -> sa v v' -> sa (set_idx u v) (set_idx u' v').
Proof.
  intros H1 H2. destruct u, u'; cbn in H1; try contradiction; destruct v, v'; cbn in H2; try contradiction; cbn; auto. destruct H1 as (P1 & P2 & P3). split; [exact P1|]. split; [|exact P3]. split; cbn; [apply P2|]. apply H2.
Qed.
Lemma ixeqb_layout X Y (a a' : nd X) (b b' : nd Y) : sn a a' -> sn b b' -> ixeqb (sh a) (sh b) = ixeqb (sh a') (sh b').
Proof. unfold sn. intros -> ->. reflexivity. Qed.
Lemma same_type_layout (u u' v v' : arg A) : sa u u' -> sa v v' -> same_type u v = same_type u' v'.
Proof.
  intros H1 H2. destruct u, u'; cbn in H1; try contradiction; destruct v, v'; cbn in H2; try contradiction; cbn; auto; [|apply ixeqb_layout; auto].
  destruct H1 as (P1 & P2 & P3), H2 as (Q1 & Q2 & Q3). rewrite (ixeqb_layout P1 Q1), (ixeqb_layout P3 Q3), (proj1 P2), (proj1 Q2). reflexivity.
Qed.
Lemma carry_match_layout (u u' v v' : arg A) : sa u u' -> sa v v' -> carry_match u v = carry_match u' v'.
Proof.
  intros H1 H2. unfold carry_match. rewrite (@same_type_layout _ _ _ _ H1 H2). destruct u, u'; cbn in H1; try contradiction; destruct v, v'; cbn in H2; try contradiction; auto. unfold idx_match.
  rewrite (proj2 (proj1 (proj2 H1))), (proj2 (proj1 (proj2 H2))). reflexivity.
Qed.
Lemma all2_layout (f : arg A -> arg A -> bool) : (forall u u' v v', sa u u' -> sa v v' -> f u v = f u' v') -> forall l l' m m', Forall2 sa l l' -> Forall2 sa m m' -> all2 f l m = all2 f l' m'.
Proof. intros Hf l l' m m' H. revert m m'. induction H as [|u u' l l' Hu HF IH]; intros m m' Hm; destruct Hm; cbn; auto. rewrite (Hf u u' x y) by auto. f_equal. auto. Qed.
Lemma lift_jdata (u v : arg A) : sa u v -> sn (jdata (ljac (lift u))) (jdata (ljac (lift v))).
Proof. destruct u, v; cbn; try contradiction. - intros H. apply H. - unfold sn. cbn. intros ->. reflexivity. Qed.
Lemma lift_llap (u v : arg A) : sa u v -> sn (llap (lift u)) (llap (lift v)).
Proof. destruct u, v; cbn; try contradiction. - intros H. apply H. - unfold sn. cbn. intros ->. reflexivity. Qed.
Lemma stack_arg_layout (l m : list (arg A)) : Forall2 sa l m -> sa (stack_arg l) (stack_arg m).
Proof.
  intros H. unfold stack_arg. assert (HH : sa (hd (AX nd0) l) (hd (AX nd0) m)) by (destruct H; [apply sa_refl|assumption]).
  assert (E1 : sn (stackv (map (@aval A) l)) (stackv (map (@aval A) m))) by (apply stackv_layout; apply (R2_map _ _ _ H); intros; apply sa_aval; assumption).
  destruct (hd (AX nd0) l), (hd (AX nd0) m); cbn in HH; try contradiction; cbn [sa]; [|exact E1]. split; [exact E1|]. split; [split; cbn [jdata jidx]; [|apply HH]|].
  - apply stackv_layout. apply (R2_map _ _ _ H). intros. apply lift_jdata. assumption.
  - apply stackv_layout. apply (R2_map _ _ _ H). intros. apply lift_llap. assumption.
Qed.
Lemma eval_scan_layout (b : list (arg A) -> option (list (arg A))) nc nk T rv xs xs' : (forall ys ys', Forall2 sa ys ys' -> orel (Forall2 sa) (b ys) (b ys')) -> Forall2 sa xs xs' ->
  orel (Forall2 sa) (eval_scan b nc nk T rv xs) (eval_scan b nc nk T rv xs').
Proof.
  intros HB Hx. unfold eval_scan. destruct (Nat.eqb T 0); [exact I|]. cbv zeta.
  pose proof (R2_firstn Hx nc) as Hcs. pose proof (R2_firstn (R2_skipn Hx nc) nk) as Hcy. pose proof (R2_skipn Hx (nc + nk)) as Hin. rewrite (forallb_al Hin). destruct (negb _); [exact I|].
  set (W := fun (xs c : list (arg A)) t => match b (firstn nc xs ++ map2 (@set_idx A) c (firstn nk (skipn nc xs)) ++ map (fun x => AX (row (aval x) t)) (skipn (nc + nk) xs)) with None => None | Some r => Some (firstn nk r, skipn nk r) end).
  assert (HW : forall c c' t, Forall2 sa c c' -> orel (fun r r' => Forall2 sa (fst r) (fst r') /\ Forall2 sa (snd r) (snd r')) (W xs c t) (W xs' c' t)).
  { intros c c' t Hc. unfold W. match goal with |- orel _ match b ?X with _ => _ end match b ?Y with _ => _ end => assert (HL : Forall2 sa X Y) end.
    { apply R2_app; [exact Hcs|]. apply R2_app.
      - apply (@R2_map2 _ _ _ _ _ _ sa sa sa _ _ _ _ _ _ Hc Hcy). intros. apply set_idx_layout; assumption.
      - apply (R2_map _ _ _ Hin). intros u v Hu. apply row_layout. apply sa_aval. exact Hu. }
    pose proof (HB _ _ HL) as H1. destruct (b _) as [r|], (b _) as [r'|]; cbn in H1; try contradiction; [|exact I]. cbn. split; [apply R2_firstn|apply R2_skipn]; exact H1. }
  fold (W xs (firstn nk (skipn nc xs)) 0%nat) (W xs' (firstn nk (skipn nc xs')) 0%nat). pose proof (HW _ _ 0%nat Hcy) as H0.
  destruct (W xs (firstn nk (skipn nc xs)) 0%nat) as [[fc fy]|], (W xs' (firstn nk (skipn nc xs')) 0%nat) as [[fc' fy']|]; cbn in H0; try contradiction; [|exact I]. destruct H0 as [Hfc Hfy].
  rewrite (@all2_layout _ carry_match_layout _ _ _ _ Hcy Hfc). destruct (negb _); [exact I|].
  match goal with |- orel _ match ?X with _ => _ end match ?Y with _ => _ end => assert (HL : orel (fun r r' => Forall2 sa (fst r) (fst r') /\ Forall2 (Forall2 sa) (snd r) (snd r')) X Y) end.
  { apply loop_rel; [|exact Hcy]. intros c c' t Hc. fold (W xs c t) (W xs' c' t). pose proof (HW _ _ t Hc) as H1. destruct (W xs c t) as [[d y]|], (W xs' c' t) as [[d' y']|]; cbn in H1; try contradiction; [|exact I].
    destruct H1 as [H1 H2]. rewrite (@all2_layout _ same_type_layout _ _ _ _ Hcy H1). destruct (all2 _ _ _); [|exact I]. cbn. auto. }
  destruct (loop _ _ _) as [[c ys]|], (loop _ _ _) as [[c' ys']|]; cbn in HL; try contradiction; [|exact I]. destruct HL as [H1 H2]. cbn [orel]. apply R2_app.
  - apply (@R2_map2 _ _ _ _ _ _ sa sa sa _ _ _ _ _ _ H1 Hfc). intros. apply set_idx_layout; assumption.
  - apply (R2_map _ _ _ (@cols_rel _ sa (AX nd0) _ _ (@sa_refl _ (AX nd0)) (unorder_rel rv H2))). intros; apply stack_arg_layout; assumption.
Qed.
Lemma default_layout fs : Forall (fun f => so f f) fs -> slr (@default_rule A RA c2r fs).
Proof.
  intros H th args args' Ha. unfold default_rule. apply orel_sequence. induction H; cbn; constructor; auto. apply wrap_layout; [|exact Ha]. split; [assumption|exact I].
Qed.
Lemma returns_layout th la la' : Forall2 sl la la' -> list_returns th la = list_returns th la'.
Proof.
  intros H. unfold list_returns. rewrite (any_weak_layout H). apply (f_equal (orb _)). destruct H as [|a a' l l' Ha [|? ? ? ? ? ?]]; try reflexivity. destruct Ha as (H1 & H2 & _). unfold ndim. rewrite H1, (proj1 H2).
  pose proof (@red_layout _ _ (ljac a) (ljac a') (norm_axes (length (sh (jdata (ljac a'))) - 1) (map Z.of_nat (seq 0 (length (sh (lx a')))))) H2) as HR.
  destruct (get_jacobian_for_reduction _ _) as [[g m]|], (get_jacobian_for_reduction _ _) as [[g' m']|]; cbn in HR; try contradiction; [|reflexivity]. destruct HR as [_ E]. cbn in E. subst m'. reflexivity.
Qed.
Lemma list_layout fs : Forall (fun f => so f f) fs -> slr (@list_rule A RA c2r fs).
Proof. intros H th args args' Ha. unfold list_rule. rewrite (returns_layout th (als_layout Ha)). destruct (list_returns _ _); [apply default_layout; auto|exact I]. Qed.
Lemma missing_layout fs : Forall (fun f => so f f) fs -> slr (@missing_rule A RA c2r fs).
Proof. intros H. unfold missing_rule. destruct fs as [|f [|? ?]]; [apply list_layout|apply default_layout|apply list_layout]; exact H. Qed.
Lemma runb_rel {V} (P : V -> V -> Prop) rc C cs cs' xs xs' : lcode P C -> Forall2 P cs cs' -> Forall2 P xs xs' -> orel (Forall2 P) (runb rc C cs xs) (runb rc C cs' xs').
Proof. intros. destruct rc; [apply run_rel|apply run0_rel]; auto. Qed.
Context (Hnreg : forall name r, nreg name = Some r -> slr r).
Lemma run_layout_from rc th j closed xs xs' : (forall k, In k (subops j) -> forall ys ys', Forall2 sa ys ys' -> orel (Forall2 sa) (step_of reg nreg c2r rc th k ys) (step_of reg nreg c2r rc th k ys')) ->
  Forall2 sa xs xs' -> orel (Forall2 sa) (jrun reg nreg c2r rc th j closed xs) (jrun reg nreg c2r rc th j closed xs').
Proof.
  intros HK Hx. rewrite !jrun_eq. apply runb_rel; [|apply R2_refl; apply sa_refl|exact Hx]. split; [|apply latoms_arg]. cbn [code_of c_eqns]. apply Forall_forall. intros e He. apply in_map_iff in He. destruct He as (q & <- & Hq).
  split; [apply latoms_arg|]. cbn [instr_of i_step]. intros ys ys' Hy. apply HK; auto using in_subops.
Qed.
Lemma step_layout rc th k : sshape k -> forall xs xs', Forall2 sa xs xs' -> orel (Forall2 sa) (step_of reg nreg c2r rc th k xs) (step_of reg nreg c2r rc th k xs').
Proof.
  assert (HP : forall k, sshape k -> forall xs xs', Forall2 sa xs xs' -> orel (Forall2 sa) (option_map (map (@AX A)) (plain_of k (map (@aval A) xs))) (option_map (map (@AX A)) (plain_of k (map (@aval A) xs')))).
  { intros k0 Hk xs xs' Hx. assert (HX : Forall2 sn (map (@aval A) xs) (map (@aval A) xs')) by (apply (R2_map _ _ _ Hx); intros; apply sa_aval; assumption). pose proof (plain_layout Hk HX) as H1.
    destruct (plain_of k0 _) as [r|], (plain_of k0 _) as [r'|]; cbn in H1; try contradiction; [|exact I]. cbn. apply (R2_map _ _ _ H1). intros u v Hu. exact Hu. }
  apply (@opk_all A K (fun k => sshape k -> forall xs xs', Forall2 sa xs xs' -> orel (Forall2 sa) (step_of reg nreg c2r rc th k xs) (step_of reg nreg c2r rc th k xs'))); clear k.
  - intros key fs H xs xs' Hx. cbn [step_of]. rewrite (forallb_al Hx). destruct (forallb _ xs'); [apply HP; auto|]. inversion H as [? ? HF HK| | |]; subst. unfold eval_prim. destruct (reg key) as [r|] eqn:E; [apply (HK r eq_refl); exact Hx|apply missing_layout; auto].
  - intros fs H xs xs' Hx. cbn [step_of]. rewrite (forallb_al Hx). destruct (forallb _ xs'); [apply HP; auto|]. inversion H as [|? HF| |]; subst. apply list_layout; auto.
  - intros name j IH H xs xs' Hx. cbn [step_of]. rewrite (forallb_al Hx). destruct (forallb _ xs'); [apply HP; auto|]. inversion H as [| |? ? HF|]; subst. destruct (nreg name) as [r|] eqn:E; [apply (@Hnreg name r E); exact Hx|]. apply run_layout_from; auto.
  - intros nc nk T rv j IH H xs xs' Hx. cbn [step_of]. rewrite (forallb_al Hx). destruct (forallb _ xs'); [apply HP; auto|]. inversion H as [| | |? ? ? ? ? HF]; subst. apply eval_scan_layout; [|exact Hx]. intros ys ys' Hy. apply run_layout_from; auto.
Qed.
Theorem jrun_layout rc th j closed xs xs' : sshapej j -> Forall2 sa xs xs' -> orel (Forall2 sa) (jrun reg nreg c2r rc th j closed xs) (jrun reg nreg c2r rc th j closed xs').
Proof. intros H Hx. apply run_layout_from; [|exact Hx]. intros k Hk. apply step_layout. apply H. exact Hk. Qed.
(* the seeds *)
Lemma seeds_layout sparse ws ws' (xs xs' : list (nd A)) : Forall2 sn ws ws' -> Forall2 sn xs xs' -> Forall2 sa (seeds sparse ws xs) (seeds sparse ws' xs').
Proof.
  intros Hw Hx. unfold seeds. rewrite (R2_len Hx). apply (R2_map (P := eq) _ _ _ (@R2_refl _ eq _ (fun x => eq_refl))). intros k k' <-. cbn [sa].
  assert (HL : Forall2 sn (leaf_weights ws xs) (leaf_weights ws' xs')) by (apply (@R2_map2 _ _ _ _ _ _ sn sn sn _ _ _ _ _ _ Hw Hx); intros x x' y y' _ Hy; exact Hy).
  pose proof (so_nth k Hx) as Hk. pose proof (so_nth k HL) as Hl. unfold sn in Hk, Hl. unfold seed. cbv zeta. split; [exact Hk|]. split; [|exact Hk].
  assert (HE : seed_idx xs = seed_idx xs') by (unfold seed_idx; rewrite !ravel_length, (sn_map_sh Hx); reflexivity).
  destruct sparse; split; cbn [ljac jdata jidx].
  - cbn. f_equal. exact Hl.
  - rewrite HE. reflexivity.
  - cbn [stack sh]. rewrite !ravel_length, (sn_map_sh HL). f_equal. exact Hk.
  - reflexivity.
Qed.
Lemma sizes_layout (l m : list (arg A)) : Forall2 sa l m -> map (fun v => prod (sh (aval v))) l = map (fun v => prod (sh (aval v))) m.
Proof. intros H. apply (R2_map_eq _ _ H). intros u v Hu. pose proof (@sa_aval _ _ _ Hu) as E. unfold sn in E. rewrite E. reflexivity. Qed.
Theorem forward_layout t j ws ws' leaves leaves' : sshapej j -> Forall2 sn ws ws' -> Forall2 sa leaves leaves' ->
  orel (Forall2 sa) (forward_laplacian reg nreg c2r t j ws leaves) (forward_laplacian reg nreg c2r t j ws' leaves').
Proof.
  intros Hj Hw Hl. unfold forward_laplacian. rewrite (sizes_layout Hl). apply jrun_layout; [exact Hj|]. unfold init_state.
  assert (E : existsb (@is_al A) leaves = existsb (@is_al A) leaves') by (clear -Hl; induction Hl as [|u v l m Hu HF IH]; cbn; auto; rewrite (@sa_is_al _ _ _ Hu), IH; reflexivity).
  rewrite E. destruct (existsb _ leaves'); [exact Hl|]. apply seeds_layout; [exact Hw|]. apply (R2_map _ _ _ Hl). intros; apply sa_aval; assumption.
Qed.
End Prog.
