(* Rules.v : the registry entries of wrapped_functions.py:297-436 that go through wrap_forward_laplacian are sound, class by class. *)
From Verif Require Export Wrap.
Set Implicit Arguments.

Section Rules.
Context {A : Type} {RA : CRing A}.
Add Ring Aring_Rules : (@rth A RA).
Open Scope cr_scope.

Lemma canon_nil (X : Type) (r : X -> nat) (l : list X) : sequence (map (fun a => canon_axes (r a) (Some [])) l) = Some (map (fun _ => []) l).
Proof. induction l as [|x l IH]; cbn; auto. cbn in IH. rewrite IH. reflexivity. Qed.
Lemma canon_none (X : Type) (r : X -> nat) (l : list X) : sequence (map (fun a => canon_axes (r a) None) l) = Some (map (fun a => seq 0 (r a)) l).
Proof. induction l as [|x l IH]; cbn; auto. cbn in IH. rewrite IH. reflexivity. Qed.
Lemma xs_at' (l : list (lapl A)) k : (k < length l)%nat -> nth k (xs_of l) nd0 = lx (nth k l la0).
Proof. intros H. unfold xs_of. rewrite nth_map_in with (dx := la0) by auto. reflexivity. Qed.

Lemma bshapes1 s : bshapes [s] = Some s.
Proof. unfold bshapes. cbn [fold_left]. apply bshape2_bto_l. apply bto_nil. Qed.

(* the values that flow through a program: well-formed, and sparse Jacobians store at least one row *)
Definition vok (n : nat) (v : arg A) : Prop := match v with AL a => awf n a /\ jrow1 (ljac a) | AX _ => True end.
Lemma vok_als n args : (forall v, In v args -> vok n v) -> forall a, In a (als args) -> awf n a /\ jrow1 (ljac a).
Proof. intros H a Ha. apply In_als in Ha. apply (H _ Ha). Qed.
(* folx mixes of sparse and dense Jacobians for which propagation of elementwise functions is exact (C13) *)
Definition mix1 (la : list (lapl A)) : Prop := any_weak la = false \/ all_weak la = true \/ (length la <= 2)%nat \/ forall a, In a la -> jinv (ljac a).
(* ... and the second-order term of a non-linear function (C16, C17) *)
Definition mix2 (th : Z) (n : nat) (la : list (lapl A)) : Prop := any_weak la = false \/ forall a, In a la -> weak (ljac a) = false -> rows (jdata (ljac a)) = n \/ (th <= Z.of_nat (rows (jdata (ljac a))))%Z.
Lemma mix2_tall th n fl la : has SPARSE_JHJ fl = false -> mix2 th n la -> any_weak la = false \/ forall a, In a la -> weak (ljac a) = false -> tall n th fl a.
Proof. intros Hf [H|H]; [left; exact H|right]. intros a Ha Hw. destruct (H a Ha Hw); [left|right]; auto. Qed.
Lemma mix1_two la : (length la <= 2)%nat -> mix1 la. Proof. unfold mix1. auto. Qed.
Lemma mix2_one th n a : mix2 th n [a].
Proof. unfold mix2, any_weak. cbn. destruct (weak (ljac a)) eqn:E; [right|left; reflexivity]. intros b [<-|[]] H. congruence. Qed.
Lemma all_weak_mix2 th n la : all_weak la = true -> mix2 th n la.
Proof. intros H. right. intros a Ha E. unfold all_weak in H. rewrite forallb_forall in H. rewrite (H a Ha) in E. discriminate. Qed.

(* ---- elementwise functions ---- *)
Section Ew.
Context (phi : list A -> A) (d : list A -> nat -> A) (h : list A -> nat -> nat -> A).
(* wrap_forward_laplacian(phi, in_axes=(), flags=fl), wrapper.py:73-138, as used at wrapped_functions.py:297-442 *)
Definition ew_rule (fl : flags) (cu : option (custom_rule A)) : rule A := Rule (Fn (ew_op phi d h) None None) fl (Some []) cu true.
Let f := ew_op phi d h.
Lemma merged_ew_at args a : bshapes (map (@sh A) (map (@aval A) args)) <> None -> (a < length (als args))%nat ->
  elementwise_at (merged f (merge_of (mask_of args)) (length (als args)) (exs args)) (xs_of (als args)) a.
Proof.
  intros HB Ha. pose proof (@ew_elementwise _ _ phi d h (map (@aval A) args) HB) as HE. fold f in HE.
  destruct (@at_pos _ _ args a Ha) as [E HP]. set (P := posof (merge_of (mask_of args)) (length (als args)) (length (exs args)) a) in *.
  assert (EX : nth P (map (@aval A) args) nd0 = nth a (xs_of (als args)) nd0).
  { rewrite <- xs_lift, !xs_at' by (rewrite ?map_length; auto). rewrite E. reflexivity. }
  destruct (HE P) as [H1 H2]; [rewrite map_length; exact HP|]. unfold elementwise_at. rewrite merged_fwd. rewrite EX in H1, H2. split; [exact H1|].
  intros p q Hp Hq Hne. cbn [merged o_d]. fold P. rewrite merge_avals. apply H2; auto.
Qed.
Lemma ew_first n th fl args t : (0 < n)%nat -> als args <> [] -> (forall v, In v args -> vok n v) -> bshapes (map (@sh A) (map (@aval A) args)) <> None ->
  mix1 (als args) -> jvp_fn (Fn f None None) (merge_of (mask_of args)) (exs args) th fl (Some []) (als args) = Some t ->
  step_ok n (merged f (merge_of (mask_of args)) (length (als args)) (exs args)) (als args) t /\ jrow1 (snd (fst t)).
Proof.
  intros Hn Hne Hv HB HM H. refine (@jvp_fn_sound _ _ n (Fn f None None) _ (exs args) th fl (Some []) (als args) t Hn Hne (merge_args_ok args) (@vok_als n args Hv) _ _ _ H).
  - intros a Ha. unfold struct_at. cbn [axes_of f_op]. apply merged_ew_at; auto.
  - exact I.
  - cbn [axes_nil]. rewrite orb_true_r, andb_true_r. destruct HM as [HM|[HM|[HM|HM]]]; auto. destruct (all_weak (als args)) eqn:E; auto. do 4 right. intros a Ha. right. apply HM; auto.
Qed.
Lemma ew_setup n args : (0 < n)%nat -> als args <> [] -> (forall v, In v args -> vok n v) -> bshapes (map (@sh A) (map (@aval A) args)) <> None ->
  setup n f (merge_of (mask_of args)) (als args) (map (fun _ => []) (als args)) (exs args) (map (fun _ => []) (exs args)).
Proof.
  intros Hn Hne Hv HB. apply setup_ew; auto.
  - intros a Ha. apply (@vok_als n args Hv a Ha).
  - apply als_count.
  - apply exs_count.
  - rewrite merge_avals. exact HB.
Qed.
(* the shared skeleton: only the second-order part differs *)
Lemma ew_sound n c2r th fl cu args r : (0 < n)%nat -> als args <> [] -> (forall v, In v args -> vok n v) -> bshapes (map (@sh A) (map (@aval A) args)) <> None ->
  mix1 (als args) ->
  (forall hh, jhj_trace f c2r fl cu (exs args) (map (fun _ => []) (als args)) (map (fun _ => []) (exs args)) (merge_of (mask_of args)) th (als args) = Some hh ->
     jhj_ok n (merged f (merge_of (mask_of args)) (length (als args)) (exs args)) (als args) hh) ->
  wrap_fl (ew_rule fl cu) c2r th args = Some r -> exists a, r = AL a /\ arg_ok n f args a /\ jrow1 (ljac a).
Proof.
  intros Hn Hne Hv HB HM H2 H.
  refine (@wrap_sound _ _ n (ew_rule fl cu) c2r th args _ _ r Hne (canon_nil _ _) (canon_nil _ _) _ H2 H).
  intros t Ht. cbn [r_fn ew_rule f_op]. exact (@ew_first n th fl args t Hn Hne Hv HB HM Ht).
Qed.
(* no second derivatives: add, sub, neg, ... (flags LINEAR) *)
Theorem ew_linear_sound n c2r th fl cu args r : (0 < n)%nat -> als args <> [] -> (forall v, In v args -> vok n v) -> bshapes (map (@sh A) (map (@aval A) args)) <> None ->
  mix1 (als args) -> has LINEAR fl = true -> (forall v a b, h v a b = 0) ->
  wrap_fl (ew_rule fl cu) c2r th args = Some r -> exists a, r = AL a /\ arg_ok n f args a /\ jrow1 (ljac a).
Proof.
  intros Hn Hne Hv HB HM HL Hh H. refine (@ew_sound n c2r th fl cu args r Hn Hne Hv HB HM _ H). intros hh E. unfold jhj_trace in E. rewrite HL in E. injection E as <-.
  apply zero_ok. intros p Hp. apply hspec_zero. intros a q b s _ _ _ _. cbn [merged o_h f ew_op]. destruct (_ && _); auto.
Qed.
(* any number of arguments, no flags: sin, exp, log, pow, atan2, logaddexp, ... *)
Theorem ew_general_sound n c2r th args r : (0 < n)%nat -> als args <> [] -> (forall v, In v args -> vok n v) -> bshapes (map (@sh A) (map (@aval A) args)) <> None ->
  mix1 (als args) -> mix2 th n (als args) ->
  wrap_fl (ew_rule 0%Z None) c2r th args = Some r -> exists a, r = AL a /\ arg_ok n f args a /\ jrow1 (ljac a).
Proof.
  intros Hn Hne Hv HB HM HM2 H. refine (@ew_sound n c2r th 0%Z None args r Hn Hne Hv HB HM _ H). intros hh E. unfold jhj_trace in E.
  exact (@vmapped_general _ _ n f c2r 0%Z (exs args) _ _ _ th (als args) hh (@ew_setup n args Hn Hne Hv HB) eq_refl (@mix2_tall th n 0%Z _ eq_refl HM2) E).
Qed.
Theorem ew_unary_sound n c2r th a r : (0 < n)%nat -> vok n (AL a) ->
  wrap_fl (ew_rule 0%Z None) c2r th [AL a] = Some r -> exists b, r = AL b /\ arg_ok n f [AL a] b /\ jrow1 (ljac b).
Proof.
  intros Hn Hv. apply ew_general_sound; auto; try discriminate.
  - intros v [<-|[]]. exact Hv.
  - apply mix1_two. cbn. lia.
  - apply mix2_one.
Qed.
End Ew.
(* wrapped_functions.py:302-311 jax.lax.add_p: in_axes=(), LINEAR *)
Definition add_rule : rule A := ew_rule (fun v => nth 0%nat v 0 + nth 1%nat v 0) (fun _ a => if (a <? 2)%nat then 1 else 0) (fun _ _ _ => 0) LINEAR None.

(* lax.mul *)
Definition mul_rule : rule A := Rule (Fn op_mul None None) MULTIPLICATION (Some []) None true.
Theorem mul_sound n c2r th u v r : (0 < n)%nat -> als [u; v] <> [] -> vok n u -> vok n v -> bshapes [sh (aval u); sh (aval v)] <> None ->
  wrap_fl mul_rule c2r th [u; v] = Some r -> exists a, r = AL a /\ arg_ok n op_mul [u; v] a /\ jrow1 (ljac a).
Proof.
  intros Hn Hne Hu Hv HB H.
  assert (HV : forall w, In w [u; v] -> vok n w) by (intros w [<-|[<-|[]]]; auto).
  refine (@ew_sound _ _ _ n c2r th MULTIPLICATION None [u; v] r Hn Hne HV HB _ _ H).
  - apply mix1_two. destruct u, v; cbn; lia.
  - intros hh E. fold (@op_mul A RA) in *.
    pose proof (@ew_setup (fun v0 : list A => nth 0 v0 0 * nth 1 v0 0) (fun v0 a => match a with O => nth 1%nat v0 0 | S O => nth 0%nat v0 0 | _ => 0 end) (fun _ a b => match a, b with O, S O => 1 | S O, O => 1 | _, _ => 0 end) n [u; v] Hn Hne HV HB) as HS. fold (@op_mul A RA) in HS.
    assert (HT : truthful op_mul MULTIPLICATION (merge_of (mask_of [u; v]) (xs_of (als [u; v])) (exs [u; v]))).
    { rewrite merge_avals. split; [intros X; discriminate X|]. split.
      - intros _ p q s Hp _ _. cbn. destruct (_ && _); reflexivity.
      - intros _ a Ha p q s _ _ _. cbn in Ha. cbn. destruct a as [|[|a]]; try lia; destruct (_ && _); reflexivity. }
    refine (@jhj_trace_sound _ _ n op_mul c2r MULTIPLICATION (exs [u; v]) _ _ _ th (als [u; v]) hh HS HT _ _ E).
    + intros _ _ HL. split; [reflexivity|]. split; [|intros X; discriminate X].
      destruct u as [u|u], v as [v|v]; cbn in HL; try (exfalso; apply HL; reflexivity).
      * apply (@mul_dot_core A RA mgtt (lx u) (lx v) (merge_of_ok [true; true])).
      * exfalso. apply Hne. reflexivity.
    + intros X. discriminate X.
Qed.

(* ---- functions of whole arrays (in_axes=None) ---- *)
Definition fn_rule (F : fn A) (fl : flags) (cu : option (custom_rule A)) : rule A := Rule F fl None cu true.
Lemma norm_seq n : norm_axes n (map Z.of_nat (seq 0 n)) = seq 0 n.
Proof.
  unfold norm_axes. rewrite map_map. rewrite <- (map_id (seq 0 n)) at 2. apply map_ext_in. intros z Hz. destruct (Z.ltb_spec (Z.of_nat z) 0); lia.
Qed.
Lemma keep_seq n : keep_pos n (seq 0 n) = [].
Proof.
  destruct (keep_pos n (seq 0 n)) as [|k l'] eqn:Ek; auto. assert (Hk : In k (keep_pos n (seq 0 n))) by (rewrite Ek; left; auto).
  apply keep_pos_In in Hk. destruct Hk as [H1 H2]. exfalso. apply H2. apply in_seq. lia.
Qed.
(* no assumption at all is needed without in_axes and kwargs['axes'] *)
Lemma struct_full f fl (xs : list (nd A)) a : has SUMMATION fl = false -> struct_at f None fl None xs a.
Proof.
  intros Hs. unfold struct_at, axes_of. set (x := nth a xs nd0). rewrite norm_seq. destruct (map Z.of_nat (seq 0 (ndim x))) as [|z l] eqn:E.
  - assert (E0 : ndim x = 0%nat) by (apply (f_equal (@length Z)) in E; rewrite map_length, seq_length in E; exact E).
    unfold elementwise_at. fold x. assert (Es : sh x = []) by (destruct (sh x) eqn:E1; auto; unfold ndim in E0; rewrite E1 in E0; discriminate). rewrite Es.
    split; [apply bto_nil|]. intros p q _ Hq Hne. inversion Hq; subst q. exfalso. apply Hne. reflexivity.
  - split; [apply seq_NoDup|]. split; [intros d Hd; apply in_seq in Hd; lia|]. rewrite Hs. unfold reduces_at. fold x. rewrite keep_seq. intros p q _ _ Hne. exfalso. apply Hne. reflexivity.
Qed.
(* hypothesis on the arguments of rules with in_axes=None: all dense, or at most two, or no scalar (findings 20 and 23) *)
Definition mixI (la : list (lapl A)) : Prop := any_weak la = false \/ (length la <= 2)%nat \/ forall a, In a la -> ndim (lx a) <> 0%nat \/ jinv (ljac a).
Lemma axes_full (x : nd A) : ndim x <> 0%nat -> axes_of None None x <> [].
Proof. intros H E. apply H. unfold axes_of in E. apply (f_equal (@length Z)) in E. rewrite map_length, seq_length in E. exact E. Qed.

(* ---- indexing: reshape, slice, transpose, broadcast_in_dim, concatenate, select_n, gather, rev, squeeze ... (flags INDEXING) ---- *)
Definition index_rule (g : iop) (ok filled : bool) : rule A := fn_rule (Fn (iop_op g) None (Some (g, ok, filled))) INDEXING None.
Theorem index_sound n g ok filled c2r th args r : (0 < n)%nat -> als args <> [] -> (forall v, In v args -> vok n v) -> iop_wf g (map (@sh A) (map (@aval A) args)) ->
  mixI (als args) -> wrap_fl (index_rule g ok filled) c2r th args = Some r -> exists a, r = AL a /\ arg_ok n (iop_op g) args a /\ jrow1 (ljac a).
Proof.
  intros Hn Hne Hv Hg HM H.
  refine (@wrap_sound _ _ n (index_rule g ok filled) c2r th args _ _ r Hne (canon_none _ _) (canon_none _ _) _ _ H).
  - intros t Ht. cbn [r_fn index_rule fn_rule f_op].
    refine (@jvp_fn_sound _ _ n (Fn (iop_op g) None (Some (g, ok, filled))) _ (exs args) th INDEXING None (als args) t Hn Hne (merge_args_ok args) (@vok_als n args Hv) _ _ _ Ht).
    + intros a Ha. apply struct_full. reflexivity.
    + unfold iop_ok. cbn [f_iop]. split; [reflexivity|]. rewrite merge_avals. exact Hg.
    + cbn [f_kwaxes]. destruct (all_weak (als args)) eqn:Ew; [right; left; reflexivity|]. destruct HM as [HM|[HM|HM]]; auto.
      do 4 right. intros a Ha. destruct (HM a Ha) as [E|E]; auto. left. apply axes_full. exact E.
  - intros h Eh. cbn in Eh. injection Eh as <-. apply zero_ok. intros p Hp. apply hspec_zero. intros; reflexivity.
Qed.

(* ---- arbitrary functions of whole arrays ---- *)
(* two or more sparse arguments are propagated one by one; scalars among them must not store one dependency in several rows (C13) *)
Definition mixF (la : list (lapl A)) : Prop := any_weak la = false \/ length la = 1%nat \/ ((length la <= 2)%nat /\ all_weak la = false) \/ forall a, In a la -> ndim (lx a) <> 0%nat \/ jinv (ljac a).
Lemma fn_first n f fl th args t : (0 < n)%nat -> als args <> [] -> (forall v, In v args -> vok n v) -> mixF (als args) -> has SUMMATION fl = false ->
  jvp_fn (Fn f None None) (merge_of (mask_of args)) (exs args) th fl None (als args) = Some t ->
  step_ok n (merged f (merge_of (mask_of args)) (length (als args)) (exs args)) (als args) t /\ jrow1 (snd (fst t)).
Proof.
  intros Hn Hne Hv HM HS Ht.
  refine (@jvp_fn_sound _ _ n (Fn f None None) _ (exs args) th fl None (als args) t Hn Hne (merge_args_ok args) (@vok_als n args Hv) _ _ _ Ht).
  - intros a Ha. apply struct_full. exact HS.
  - exact I.
  - cbn [f_kwaxes]. destruct HM as [HM|[HM|[HM|HM]]]; auto. do 4 right. intros a Ha. destruct (HM a Ha) as [E|E]; auto. left. apply axes_full. exact E.
Qed.
Lemma linear_ok n f args : linear f (map (@aval A) args) -> jhj_ok n (merged f (merge_of (mask_of args)) (length (als args)) (exs args)) (als args) nd0.
Proof.
  intros HL. apply zero_ok. intros p Hp. rewrite hspec_all. unfold hspec. rewrite xs_lift. apply sumn_zero. intros i _.
  unfold quad. apply sumn_zero. intros a Ha. apply sumL_zero. intros q Hq. apply sumn_zero. intros b Hb. apply sumL_zero. intros s Hs. apply allix_spec in Hq, Hs.
  rewrite merged_fwd in Hp. rewrite HL; auto. ring.
Qed.
(* flags LINEAR: cumsum, scatter_add, ... *)
Theorem linear_fn_sound n f c2r th args r : (0 < n)%nat -> als args <> [] -> (forall v, In v args -> vok n v) -> mixF (als args) ->
  linear f (map (@aval A) args) ->
  wrap_fl (fn_rule (Fn f None None) LINEAR None) c2r th args = Some r -> exists a, r = AL a /\ arg_ok n f args a /\ jrow1 (ljac a).
Proof.
  intros Hn Hne Hv HM HL H.
  refine (@wrap_sound _ _ n (fn_rule (Fn f None None) LINEAR None) c2r th args _ _ r Hne (canon_none _ _) (canon_none _ _) _ _ H).
  - intros t Ht. exact (@fn_first n f LINEAR th args t Hn Hne Hv HM eq_refl Ht).
  - intros h Eh. cbn in Eh. injection Eh as <-. apply linear_ok. exact HL.
Qed.
Lemma fn_setup n f args : (0 < n)%nat -> als args <> [] -> (forall v, In v args -> vok n v) -> op_ext f (map (@aval A) args) ->
  setup n f (merge_of (mask_of args)) (als args) (map (fun a => seq 0 (ndim (lx a))) (als args)) (exs args) (map (fun e => seq 0 (ndim e)) (exs args)).
Proof.
  intros Hn Hne Hv HE. apply setup_full; auto.
  - intros a Ha. apply (@vok_als n args Hv a Ha).
  - apply als_count.
  - apply exs_count.
  - rewrite merge_avals. exact HE.
Qed.
(* no flags, in_axes=None: the default rule for unregistered primitives (wrapped_functions.py:488-494) and for custom_jvp calls (interpreter.py:155-161) *)
Theorem general_fn_sound n f c2r th args r : (0 < n)%nat -> als args <> [] -> (forall v, In v args -> vok n v) -> mixF (als args) -> mix2 th n (als args) ->
  op_ext f (map (@aval A) args) ->
  wrap_fl (fn_rule (Fn f None None) 0%Z None) c2r th args = Some r -> exists a, r = AL a /\ arg_ok n f args a /\ jrow1 (ljac a).
Proof.
  intros Hn Hne Hv HM HM2 HE H.
  refine (@wrap_sound _ _ n (fn_rule (Fn f None None) 0%Z None) c2r th args _ _ r Hne (canon_none _ _) (canon_none _ _) _ _ H).
  - intros t Ht. exact (@fn_first n f 0%Z th args t Hn Hne Hv HM eq_refl Ht).
  - intros h Eh. exact (@vmapped_general _ _ n f c2r 0%Z (exs args) _ _ _ th (als args) h (@fn_setup n f args Hn Hne Hv HE) eq_refl (@mix2_tall th n 0%Z _ eq_refl HM2) Eh).
Qed.

(* ---- reductions of one array over kwargs['axes'] ---- *)
Definition ax_ok (x : nd A) (axes : list Z) : Prop := let nax := norm_axes (ndim x) axes in NoDup nax /\ forall d, In d nax -> (d < ndim x)%nat.
(* wrapped_functions.py:297-442 reductions: kwargs axes, flags fl *)
Definition red_rule (f : op A) (axes : list Z) (fl : flags) : rule A := fn_rule (Fn f (Some axes) None) fl None.
Lemma merged_one f (a : lapl A) p b q : o_d (merged f (merge_of [true]) 1 []) [lx a] p b q = o_d f [lx a] p (posof (merge_of [true]) 1 0 b) q.
Proof. reflexivity. Qed.
Lemma red_struct f (a : lapl A) axes fl : axes <> [] -> ax_ok (lx a) axes ->
  (if has SUMMATION fl then is_sum f (lx a) (norm_axes (ndim (lx a)) axes) else reduces f (lx a) (norm_axes (ndim (lx a)) axes)) ->
  struct_at (merged f (merge_of [true]) 1 []) (Some axes) fl None [lx a] 0.
Proof.
  intros Hne [H1 H2] H3. unfold struct_at. cbn [axes_of nth]. destruct axes as [|z l]; [congruence|]. split; [exact H1|]. split; [exact H2|].
  destruct (has SUMMATION fl); [split; [reflexivity|]; exact H3|]. exact H3.
Qed.
Lemma red_first n f axes fl th a t : (0 < n)%nat -> vok n (AL a) -> axes <> [] -> ax_ok (lx a) axes ->
  (if has SUMMATION fl then is_sum f (lx a) (norm_axes (ndim (lx a)) axes) else reduces f (lx a) (norm_axes (ndim (lx a)) axes)) ->
  jvp_fn (Fn f (Some axes) None) (merge_of [true]) [] th fl None [a] = Some t ->
  step_ok n (merged f (merge_of [true]) 1 []) [a] t /\ jrow1 (snd (fst t)).
Proof.
  intros Hn Hv Hne Hax HS Ht.
  refine (@jvp_fn_sound _ _ n (Fn f (Some axes) None) _ [] th fl None [a] t Hn _ (merge_of_ok [true]) _ _ _ _ Ht); try discriminate.
  - intros b [<-|[]]. exact Hv.
  - intros b Hb. cbn in Hb. assert (b = 0%nat) by lia. subst b. apply red_struct; auto.
  - exact I.
  - auto.
Qed.
(* reduce_sum.  An empty list of axes is the identity; that case is covered by DotGen.sum_any_sound. *)
Definition sum_rule (axes : list Z) (naxes : list nat) : rule A := red_rule (op_sum naxes) axes SUMMATION.
Theorem sum_sound n axes c2r th a r : (0 < n)%nat -> vok n (AL a) -> axes <> [] -> ax_ok (lx a) axes ->
  let nax := norm_axes (ndim (lx a)) axes in
  wrap_fl (sum_rule axes nax) c2r th [AL a] = Some r -> exists b, r = AL b /\ arg_ok n (op_sum nax) [AL a] b /\ jrow1 (ljac b).
Proof.
  intros Hn Hv Hne Hax nax H. assert (Hn1 : als [AL a] <> []) by discriminate.
  refine (@wrap_sound _ _ n (sum_rule axes nax) c2r th [AL a] _ _ r Hn1 (canon_none _ _) (canon_none _ _) _ _ H).
  - intros t Ht. refine (@red_first n (op_sum nax) axes SUMMATION th a t Hn Hv Hne Hax _ Ht). apply sum_is_sum.
  - intros h Eh. cbn in Eh. injection Eh as <-. apply linear_ok. intros p b q c s _ _ _ _ _. reflexivity.
Qed.
(* reduce_max, reduce_min (flags REDUCTION | LINEAR = 15) *)
Theorem linred_sound n f axes c2r th a r : (0 < n)%nat -> vok n (AL a) -> axes <> [] -> ax_ok (lx a) axes ->
  reduces f (lx a) (norm_axes (ndim (lx a)) axes) -> linear f [lx a] ->
  wrap_fl (red_rule f axes 15%Z) c2r th [AL a] = Some r -> exists b, r = AL b /\ arg_ok n f [AL a] b /\ jrow1 (ljac b).
Proof.
  intros Hn Hv Hne Hax HR HL H. assert (Hn1 : als [AL a] <> []) by discriminate.
  refine (@wrap_sound _ _ n (red_rule f axes 15%Z) c2r th [AL a] _ _ r Hn1 (canon_none _ _) (canon_none _ _) _ _ H).
  - intros t Ht. exact (@red_first n f axes 15%Z th a t Hn Hv Hne Hax HR Ht).
  - intros h Eh. cbn in Eh. injection Eh as <-. apply linear_ok. exact HL.
Qed.
(* reduce_prod (flags REDUCTION = 8) and any other reduction *)
Theorem red_sound n f axes c2r th a r : (0 < n)%nat -> vok n (AL a) -> axes <> [] -> ax_ok (lx a) axes ->
  reduces f (lx a) (norm_axes (ndim (lx a)) axes) -> op_ext f [lx a] ->
  wrap_fl (red_rule f axes REDUCTION) c2r th [AL a] = Some r -> exists b, r = AL b /\ arg_ok n f [AL a] b /\ jrow1 (ljac b).
Proof.
  intros Hn Hv Hne Hax HR HE H. assert (Hn1 : als [AL a] <> []) by discriminate.
  refine (@wrap_sound _ _ n (red_rule f axes REDUCTION) c2r th [AL a] _ _ r Hn1 (canon_none _ _) (canon_none _ _) _ _ H).
  - intros t Ht. exact (@red_first n f axes REDUCTION th a t Hn Hv Hne Hax HR Ht).
  - intros h Eh. assert (HV : forall v, In v [AL a] -> vok n v) by (intros v [<-|[]]; exact Hv).
    exact (@vmapped_general _ _ n f c2r REDUCTION [] _ _ _ th [a] h (@fn_setup n f [AL a] Hn Hn1 HV HE) eq_refl (@mix2_tall th n REDUCTION _ eq_refl (mix2_one th n a)) Eh).
Qed.

(* ---- division (wrapped_functions.py:316-321) ---- *)
Section Div.
Context (inv : A -> A).
(* wrapped_functions.py:297-442 jax.lax.div_p with div_jac_hessian_jac (custom_hessian.py:81-105) *)
Definition div_rule : rule A := Rule (Fn (op_div inv) None None) LINEAR_IN_FIRST (Some []) (Some (div_jhj inv)) true.
Lemma scalar_slice (b : nd A) bi brd : bto (sh b) brd -> inb bi brd -> eqa (bslice [] bi b) (Nd [] (fun _ => at_ b (bproj (sh b) bi))).
Proof.
  intros Hb Hi. unfold bslice. rewrite sax_nil. split; cbn [sh at_]; [reflexivity|]. intros j Hj. inversion Hj; subst j.
  pose proof (bproj_inb Hb Hi) as Hin. unfold ndim. rewrite keep_pos_nil, permute_id. rewrite weave_nil by (apply inb_length; exact Hin). reflexivity.
Qed.
Theorem div_sound n c2r th u v r : (0 < n)%nat -> als [u; v] <> [] -> vok n u -> vok n v -> bshapes [sh (aval u); sh (aval v)] <> None ->
  (forall q, inb q (sh (aval v)) -> invertible inv (at_ (aval v) q)) -> mix2 th n (als [u; v]) ->
  wrap_fl div_rule c2r th [u; v] = Some r -> exists a, r = AL a /\ arg_ok n (op_div inv) [u; v] a /\ jrow1 (ljac a).
Proof.
  intros Hn Hne Hu Hv HB HI HM2 H.
  assert (HV : forall w, In w [u; v] -> vok n w) by (intros w [<-|[<-|[]]]; auto).
  refine (@ew_sound _ _ _ n c2r th LINEAR_IN_FIRST (Some (div_jhj inv)) [u; v] r Hn Hne HV HB _ _ H).
  { apply mix1_two. destruct u, v; cbn; lia. }
  intros hh E. match type of E with jhj_trace ?ff _ _ _ _ _ _ _ _ _ = _ => change ff with (op_div inv) in * end.
  assert (HS : setup n (op_div inv) (merge_of (mask_of [u; v])) (als [u; v]) (map (fun _ => []) (als [u; v])) (exs [u; v]) (map (fun _ => []) (exs [u; v]))) by (apply ew_setup; auto).
  assert (HIV : forall brd bi (y : nd A), bto (sh (aval v)) brd -> inb bi brd -> eqa (bslice [] bi (aval v)) y -> invertible inv (at_ y [])).
  { intros brd bi y Hb Hi [E1 E2]. destruct (@scalar_slice (aval v) bi brd Hb Hi) as [F1 F2]. rewrite F1 in E2, F2. rewrite <- (E2 [] (Forall2_nil _)). rewrite (F2 [] (Forall2_nil _)). cbn [at_]. apply HI. apply (bproj_inb Hb Hi). }
  destruct u as [a|x], v as [b|y]; cbn [als exs mask_of flat_map app map is_al length] in *.
  - (* both arguments *)
    refine (@vmapped_custom A _ n (op_div inv) c2r LINEAR_IN_FIRST (div_jhj inv) [] [[]; []] [] mgtt th [a; b] hh _ _ HS eq_refl (@mix2_tall th n LINEAR_IN_FIRST _ eq_refl HM2) (@div_two_exact A _ inv n mgtt Hn (su_mg HS) eq_refl) _ E).
    intros brd bi args' es Hbrd Hb Hl (L1 & L2 & Hm) (L3 & _ & _). split; [exact Hl|]. split; [destruct es; [reflexivity|discriminate]|].
    specialize (Hm 1%nat ltac:(cbn; lia)). cbn [nth xs_of map] in Hm. destruct args' as [|a' [|b' [|? ?]]]; try discriminate. cbn [nth xs_of map] in Hm |- *.
    apply (@HIV brd bi (lx b')); auto. pose proof (@brd_bto _ _ (sh (lx b), []) Hbrd) as Hx. cbn [fst snd] in Hx. rewrite reduced_nil in Hx. apply Hx. unfold leaves_of. cbn. auto.
  - (* numerator only: linear *)
    assert (HT : truthful (op_div inv) LINEAR_IN_FIRST (merge_of [true; false] (xs_of [a]) [y])).
    { split; [intros X; vm_compute in X; discriminate X|]. split; [|intros X; vm_compute in X; discriminate X]. intros _ p q s _ _ _. cbn. destruct (_ && _); reflexivity. }
    destruct (@shortcut_sound A _ n (op_div inv) c2r LINEAR_IN_FIRST (Some (div_jhj inv)) [y] [[]] [[]] (merge_of [true; false]) th [a] (merge_of_ok [true; false]) HT eq_refl) as [G1 G2].
    rewrite G1 in E. injection E as <-. apply zero_ok. exact G2.
  - (* denominator only *)
    refine (@vmapped_custom A _ n (op_div inv) c2r LINEAR_IN_FIRST (div_jhj inv) [x] [[]] [[]] mgft th [b] hh _ _ HS eq_refl (@mix2_tall th n LINEAR_IN_FIRST _ eq_refl HM2) (@div_den_exact A _ inv n mgft Hn (su_mg HS) eq_refl) _ E).
    intros brd bi args' es Hbrd Hb Hl (L1 & L2 & Hm) (L3 & _ & _). split; [exact Hl|]. split; [exact L3|].
    specialize (Hm 0%nat ltac:(cbn; lia)). cbn [nth xs_of map] in Hm. destruct args' as [|b' [|? ?]]; try discriminate. cbn [nth xs_of map] in Hm |- *.
    apply (@HIV brd bi (lx b')); auto. pose proof (@brd_bto _ _ (sh (lx b), []) Hbrd) as Hx. cbn [fst snd] in Hx. rewrite reduced_nil in Hx. apply Hx. unfold leaves_of. cbn. auto.
  - exfalso. apply Hne. reflexivity.
Qed.
End Div.
End Rules.
