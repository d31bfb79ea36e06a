(* ScatRule.v : lax.scatter as a registered function (wrapped_functions.py:400-404), through the wrapper. *)
From Verif Require Export Rules Total.
From Verif Require Export Scatter.
Set Implicit Arguments.

Section ScatRule.
Context {A : Type} {RA : CRing A}.
Open Scope cr_scope.

(* wrapped_functions.py:400-404: jax.lax.scatter with flags INDEXING | SCATTER; the scatter is the index map g over (operand, indices, updates);
   ok, filled: as for the other index maps (jvp.py:239-330) *)
Definition scatter_fn (g : iop) (ok filled : bool) : fn A := Fn (iop_op g) None (Some (g, ok, filled)).
(* wrapper.py:73-138 wrap_forward_laplacian around jax.lax.scatter: as wrap_fl, with the propagation of scatter (jvp.py:333-414, 523-580) *)
Definition wrap_scatter (g : iop) (ok filled dims_ok : bool) (ids : list nat) (complex_to_real : bool) (threshold : Z) (args : list (arg A)) : option (arg A) :=
  let la := als args in let ex := exs args in let mg := merge_of (mask_of args) in
  let* axs := sequence (map (fun a => canon_axes (ndim (lx a)) None) la) in
  let* eaxs := sequence (map (fun x => canon_axes (ndim x) None) ex) in
  match la with
  | [] => Some (AX (o_fwd (iop_op g) (mg _ [] ex)))                                             (* l.114-115 *)
  | _ =>
    let* t := jvp_scatter (scatter_fn g ok filled) dims_ok ids mg ex threshold SCATTER_FLAGS None la in      (* l.119 *)
    let '(y, g', l) := t in
    let* h := jhj_trace (iop_op g) complex_to_real SCATTER_FLAGS None ex axs eaxs mg threshold la in
    let* l2 := bin radd l h in Some (AL (Lapl y g' l2))                                         (* l.120-132 *)
  end.
(* specification: operand and updates are both sparse, or both dense, or only one of them carries derivatives (C39) *)
Definition mixS (la : list (lapl A)) : Prop := all_weak la = true \/ any_weak la = false.

(* the rule for the other mixtures *)
Definition scatter_rule (g : iop) (ok filled : bool) : rule A := fn_rule (scatter_fn g ok filled) SCATTER_FLAGS None.
Lemma jvp_scatter_parallel F dims ids mg ex th la : mixS la -> jvp_scatter F dims ids mg ex th SCATTER_FLAGS None la = jvp_fn F mg ex th SCATTER_FLAGS None la.
Proof.
  intros H. unfold jvp_scatter, jvp_fn. change (has INDEXING SCATTER_FLAGS) with true. destruct H as [-> | ->]; cbn [negb andb orb]; rewrite ?orb_true_r; reflexivity.
Qed.
Lemma wrap_scatter_eq g ok filled dims ids c2r th args : mixS (als args) -> wrap_scatter g ok filled dims ids c2r th args = wrap_fl (scatter_rule g ok filled) c2r th args.
Proof. intros H. unfold wrap_scatter, wrap_fl. cbn [scatter_rule fn_rule r_fn r_fl r_axes r_custom r_float scatter_fn f_op]. rewrite jvp_scatter_parallel by exact H. reflexivity. Qed.
Lemma scatter_linear : has LINEAR SCATTER_FLAGS = true. Proof. reflexivity. Qed.
Theorem scatter_sound n g ok filled dims ids c2r th args r : (0 < n)%nat -> als args <> [] -> (forall v, In v args -> vok n v) -> iop_wf g (map (@sh A) (map (@aval A) args)) ->
  mixS (als args) -> wrap_scatter g ok filled dims ids c2r th args = Some r -> exists a, r = AL a /\ arg_ok n (iop_op g) args a /\ jrow1 (ljac a).
Proof.
  intros Hn Hne Hv Hg HM H. rewrite wrap_scatter_eq in H by exact HM.
  refine (@wrap_sound _ _ n (scatter_rule g ok filled) c2r th args _ _ r Hne (canon_none _ _) (canon_none _ _) _ _ H).
  - intros t Ht. cbn [r_fn scatter_rule fn_rule f_op].
    refine (@jvp_fn_sound _ _ n (scatter_fn g ok filled) _ (exs args) th SCATTER_FLAGS None (als args) t Hn Hne (merge_args_ok args) (@vok_als _ _ n args Hv) _ _ _ Ht).
    + intros a Ha. apply struct_full. reflexivity.
    + unfold iop_ok. cbn [f_iop scatter_fn]. split; [reflexivity|]. rewrite merge_avals. exact Hg.
    + cbn [f_kwaxes]. destruct HM as [-> | ->]; auto.
  - intros h Eh. cbn in Eh. injection Eh as <-. apply zero_ok. intros p Hp. apply hspec_zero. intros; reflexivity.
Qed.
Lemma dense_mixS (args : list (arg A)) : Forall (@dense_arg A) args -> mixS (als args).
Proof.
  intros H. right. unfold any_weak. destruct (existsb (fun a => weak (ljac a)) (als args)) eqn:E; [|reflexivity]. apply existsb_exists in E. destruct E as (a & Ha & Hw). apply In_als in Ha. rewrite Forall_forall in H. specialize (H _ Ha). cbn in H. congruence.
Qed.
Lemma scatter_total n g ok filled dims ids c2r th args : (forall v, In v args -> vok n v) -> Forall (@dense_arg A) args ->
  exists r, wrap_scatter g ok filled dims ids c2r th args = Some r.
Proof. intros HV HD. rewrite wrap_scatter_eq by (apply dense_mixS; exact HD). apply (@fn_linear_total _ _ n); auto. Qed.
End ScatRule.
