(* Props_Layout.v : C46, what a call returns (arrays or an error, shapes, sparsity patterns) depends on shapes and patterns only, never on numbers. *)
From Coq Require Import Reals QArith.
From Verif Require Export Props_Calc LayoutCalc.
Set Implicit Arguments.
Open Scope nat_scope.

(* ---- specification ---- *)
(* the same container: a plain array of the same shape, or a value, a Jacobian and a Laplacian of the same shapes with the same index tensor *)
Definition same_layout {A} (u v : arg A) : Prop :=
  match u, v with
  | AX x, AX y => sh x = sh y
  | AL a, AL b => sh (lx a) = sh (lx b) /\ sh (jdata (ljac a)) = sh (jdata (ljac b)) /\ jidx (ljac a) = jidx (ljac b) /\ sh (llap a) = sh (llap b)
  | _, _ => False
  end.
(* both calls raise, or both return and the results are related *)
Definition same_outcome {X} (P : X -> X -> Prop) (o o' : option X) : Prop :=
  match o, o' with Some x, Some y => P x y | None, None => True | _, _ => False end.

(* shape_only, shape_only_prog: see LayoutCalc.v *)

(* ---- the specification and the relations of Layout.v ---- *)
Lemma layout_sa {A} (u v : arg A) : same_layout u v <-> sa u v.
Proof. destruct u, v; cbn; try tauto. unfold sl, sj, sn. tauto. Qed.
Lemma layouts_sa {A} (l m : list (arg A)) : Forall2 same_layout l m <-> Forall2 sa l m.
Proof. split; induction 1; constructor; auto; apply layout_sa; assumption. Qed.
Lemma outcome_sa {A} (o o' : option (list (arg A))) : orel (Forall2 sa) o o' -> same_outcome (Forall2 same_layout) o o'.
Proof. destruct o, o'; cbn; auto. apply layouts_sa. Qed.

(* ---- C46, one rule: any function wrapped by wrap_forward_laplacian (wrapper.py:73-138) with any flags, in_axes and index declaration, over any ring ---- *)
Theorem C46_wrapped_function_layout : forall (A : Type) (RA : CRing A) (R : rule A) (c2r : bool) (th : Z) (args args' : list (arg A)),
  r_custom R = None -> shape_only (f_op (r_fn R)) -> Forall2 same_layout args args' ->
  same_outcome same_layout (wrap_fl R c2r th args) (wrap_fl R c2r th args').
Proof.
  intros A RA R c2r th args args' HC Hf Ha. assert (H : orel sa (wrap_fl R c2r th args) (wrap_fl R c2r th args')).
  { apply wrap_layout; [|apply layouts_sa; exact Ha]. split; [apply so_shape; exact Hf|rewrite HC; exact I]. }
  destruct (wrap_fl R c2r th args), (wrap_fl R c2r th args'); cbn in *; auto. apply layout_sa. exact H.
Qed.
Print Assumptions C46_wrapped_function_layout.
(* slogdet (wrapped_functions.py:194-261, real case): both outputs *)
Theorem C46_slogdet_layout : forall (A : Type) (RA : CRing A) (sgn : nd A -> nd A) ld mi (c2r : bool) (th : Z) (u v : arg A),
  (forall x y, sh x = sh y -> sh (sgn x) = sh (sgn y)) -> same_layout u v ->
  same_outcome (fun r r' => same_layout (fst r) (fst r') /\ same_layout (snd r) (snd r')) (slogdet_wrapper sgn ld mi c2r th u) (slogdet_wrapper sgn ld mi c2r th v).
Proof.
  intros A RA sgn ld mi c2r th u v Hs Hu. pose proof (@slogdet_layout A RA sgn ld mi c2r th u v Hs (proj1 (layout_sa u v) Hu)) as H.
  destruct (slogdet_wrapper sgn ld mi c2r th u), (slogdet_wrapper sgn ld mi c2r th v); cbn in *; auto. rewrite !layout_sa. exact H.
Qed.
Print Assumptions C46_slogdet_layout.

(* ---- C46, programs: every entry point of the registry of CalcPrims.v ---- *)
(* forward_laplacian(f, sparsity_threshold = t) on two sets of arguments of the same layout and weights of the same shapes: both calls raise, or both return
   results of the same layout.  Hence the sparsity patterns, and all decisions taken on them, are fixed at trace time. *)
Theorem C46_forward_laplacian_layout : forall (c2r : bool) (t : Q) (j : @jaxpr R prim) (ws ws' : list (nd R)) (leaves leaves' : list (arg R)),
  shape_only_prog j -> map (@sh R) ws = map (@sh R) ws' -> Forall2 same_layout leaves leaves' ->
  same_outcome (Forall2 same_layout) (forward_laplacian (prim_reg c2r) (name_reg c2r) c2r t j ws leaves) (forward_laplacian (prim_reg c2r) (name_reg c2r) c2r t j ws' leaves').
Proof.
  intros c2r t j ws ws' leaves leaves' Hj Hw Hl. apply outcome_sa. apply forward_layout; [apply name_slr|apply prog_sshape; exact Hj|apply sn_sh; exact Hw|apply layouts_sa; exact Hl].
Qed.
Print Assumptions C46_forward_laplacian_layout.

(* ================= examples ================= *)
(* the program of C01 (sin, products, a jitted sum, a scan) and one with a slice and sparse Jacobians, at x = (2, 3) and at x = (7, -1) *)
Definition loX : list (nd R) := [lits [2] [7; -1]%R].
Definition loS : @jaxpr R prim := Jaxpr [] [0] [] [pe (PIndex (Iop [1] (fun p => (0, p))) true false) [V 0] 1; pe PMul [V 1; V 0] 2] [V 2].
Definition layout_of (o : option (list (arg R))) : option (list (bool * shape * option (list Z))) :=
  option_map (map (fun v => match v with AL a => (true, sh (jdata (ljac a)), option_map (@flat Z) (jidx (ljac a))) | AX x => (false, sh x, None) end)) o.
Lemma kinds_shape (l : list (@eqn R prim)) : (forall e, In e l -> match e with Eqn (KPrim k fs) _ _ => Forall shape_only (prim_ops k) /\ fs = prim_ops k | _ => False end) -> forall e, In e l -> shape_only_kind (match e with Eqn k _ _ => k end).
Proof. intros H e He. specialize (H e He). destruct e as [[k fs| | |] i o]; try contradiction. destruct H as [H ->]. constructor; auto. Qed.
Lemma so_prims k : match k with PUn _ | PMul | PDiv | PSum _ | PIndex _ _ _ => True | _ => False end -> Forall shape_only (prim_ops k).
Proof.
  intros H. assert (HS : shape_only (prim_op k)); [|destruct k; try contradiction; (constructor; [exact HS|constructor])]. apply so_shape. destruct k; try contradiction; cbn [prim_op]; try apply so_ew; try apply so_sum. intros xs xs' _. reflexivity.
Qed.
Ltac prims := let e := fresh in let H := fresh in intros e H; cbn [In pe] in H; repeat (destruct H as [<-|H]; [split; [apply so_prims; exact I|reflexivity]|]); destruct H.
Lemma exF_shape : shape_only_prog exF.
Proof.
  intros e He. unfold exF in He. cbn [j_es In] in He. destruct He as [<-|[<-|[<-|[<-|[]]]]].
  - constructor; apply so_prims; exact I.
  - constructor; apply so_prims; exact I.
  - constructor. apply kinds_shape. prims.
  - constructor. apply kinds_shape. prims.
Qed.
Lemma loS_shape : shape_only_prog loS. Proof. refine (@kinds_shape _ _). unfold loS. cbn [j_es]. prims. Qed.
Example C46_hypotheses_met : shape_only_prog exF /\ shape_only_prog loS /\ Forall2 same_layout (map (@AX R) exX) (map (@AX R) loX) /\
  layout_of (forward_laplacian (prim_reg false) (name_reg false) false 1%Q loS (ones exX) (map (@AX R) exX)) = Some [(true, [2; 2], Some [0; 0; 0; 1]%Z)] /\
  layout_of (forward_laplacian (prim_reg false) (name_reg false) false 1%Q loS (ones exX) (map (@AX R) loX)) = Some [(true, [2; 2], Some [0; 0; 0; 1]%Z)] /\
  issome (forward_laplacian (prim_reg false) (name_reg false) false 1%Q exF (ones exX) (map (@AX R) loX)) = true.
Proof.
  split; [exact exF_shape|]. split; [exact loS_shape|]. split; [repeat constructor|]. split; [vm_compute; reflexivity|]. split; vm_compute; reflexivity.
Qed.
