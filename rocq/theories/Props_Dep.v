(* Props_Dep.v : property theorem C49: where derivatives are carried is a matter of data flow, and that is all that can make dense mode raise. *)
From Coq Require Import Reals Lra QArith.
From Coquelicot Require Import Coquelicot.
From Verif Require Export Props_Calc Props_Layout.
Set Implicit Arguments.
Open Scope nat_scope.
Local Notation fwd c2r := (forward_laplacian (prim_reg c2r) (name_reg c2r) c2r).

(* ---- C49 (1): for every sparsity threshold, the outputs that are FwdLaplArrays are those that the inputs reach (dep_run: data flow over the program text,
   DepCalc.v); every other output is a plain array. ---- *)
Theorem C49_derivatives_follow_the_data : forall (c2r : bool) (t : Q) (j : @jaxpr R prim) (ws xs : list (nd R)) (rs : list (arg R)),
  smallj j -> fwd c2r t j ws (map (@AX R) xs) = Some rs -> dep_run j true (map (fun _ => true) xs) = Some (map (@is_al R) rs).
Proof.
  intros c2r t j ws xs rs HS H. unfold forward_laplacian in H. cbv zeta in H. rewrite init_plain, jrun_frees_nothing in H by exact HS. apply dep_exact in H. rewrite seeds_flags in H. exact H.
Qed.
Print Assumptions C49_derivatives_follow_the_data.
(* ---- C49 (2): a program whose scans change what depends on the inputs raises, for every threshold. ---- *)
Theorem C49_changed_dependence_raises : forall (c2r : bool) (t : Q) (j : @jaxpr R prim) (ws xs : list (nd R)),
  smallj j -> dep_run j true (map (fun _ => true) xs) = None -> fwd c2r t j ws (map (@AX R) xs) = None.
Proof. intros c2r t j ws xs HS HD. destruct (fwd c2r t j ws (map (@AX R) xs)) as [rs|] eqn:E; [|reflexivity]. apply C49_derivatives_follow_the_data in E; [|exact HS]. congruence. Qed.
Print Assumptions C49_changed_dependence_raises.
(* ---- C49 (3): in dense mode nothing else raises, on programs that JAX itself evaluates and whose primitives are twice differentiable at the values they meet. ---- *)
Theorem C49_dense_mode_raises_only_then : forall (c2r : bool) (t : Q) (j : @jaxpr R prim) (ws xs ys : list (nd R)),
  (t <= 0)%Q -> 0 < total (map (@sh R) xs) -> wts_ok ws xs -> smallj j -> typed_run j true xs -> plain_run j true xs = Some ys ->
  ((exists rs, fwd c2r t j ws (map (@AX R) xs) = Some rs) <-> dep_run j true (map (fun _ => true) xs) <> None).
Proof.
  intros c2r t j ws xs ys Ht Hn HW HS HR HP. split.
  - intros (rs & H). apply C49_derivatives_follow_the_data in H; [congruence|exact HS].
  - intros HD. destruct (@C01_dense_mode_returns c2r t j ws xs ys Ht Hn HW HS HR HP HD) as (rs & H & _). exists rs. exact H.
Qed.
Print Assumptions C49_dense_mode_raises_only_then.

(* ================= examples ================= *)
(* the program of C01 (with its scan) is typed and its output depends on the input *)
Lemma exF_typed : typed_run exF true exX.
Proof.
  unfold typed_run, exF, exX, exSum, exBody. cbn -[prim_op applies diff_at o_fwd shape_only_prog].
  repeat match goal with |- _ /\ _ => split end; try fits. split; [refine (@kinds_shape _ _); cbn [j_es]; prims|].
  intros c t r Hc. cbn [firstn skipn map] in *. destruct c as [|[sy fy] [|? ?]]; try discriminate. injection Hc as Hc. intros H. vm_compute in Hc. subst sy.
  cbn -[prim_op o_fwd] in H. injection H as <-. reflexivity.
Qed.
Example C49_hypotheses_met : 0 < total (map (@sh R) exX) /\ wts_ok (ones exX) exX /\ smallj exF /\ typed_run exF true exX /\ (exists ys, plain_run exF true exX = Some ys) /\ dep_run exF true (map (fun _ => true) exX) = Some [true].
Proof.
  split; [vm_compute; repeat constructor|]. split; [apply ones_ok|]. split; [exact exF_small|]. split; [exact exF_typed|]. split; [|reflexivity].
  assert (E : issome (plain_run exF true exX) = true) by (vm_compute; reflexivity). destruct (plain_run exF true exX) as [ys|]; [eauto|discriminate].
Qed.
(* c = 1; for _ in range(3): c = c * x   with jax.lax.scan: the carry starts as a plain array and becomes a FwdLaplArray, and forward_laplacian raises although
   the program is smooth and JAX evaluates it; with the carry started at x it returns *)
Definition dpF (start : atom (nd R)) : @jaxpr R prim := Jaxpr [] [0] [] [Eqn (KScan 1 1 3 false exBody) [V 0; start] [1]] [V 1].
Definition dpOne : atom (nd R) := ALit (lits [2] [1; 1]%R).
Lemma dpF_typed : typed_run (dpF dpOne) true exX.
Proof.
  unfold typed_run, dpF, exX, exBody. cbn -[prim_op applies diff_at o_fwd shape_only_prog].
  repeat match goal with |- _ /\ _ => split end; try fits. split; [refine (@kinds_shape _ _); cbn [j_es]; prims|].
  intros c t r Hc. cbn [firstn skipn map] in *. destruct c as [|[sy fy] [|? ?]]; try discriminate. injection Hc as Hc. intros H. vm_compute in Hc. subst sy.
  cbn -[prim_op o_fwd] in H. injection H as <-. reflexivity.
Qed.
Example C49_scan_that_raises : smallj (dpF dpOne) /\ typed_run (dpF dpOne) true exX /\ issome (plain_run (dpF dpOne) true exX) = true /\ dep_run (dpF dpOne) true [true] = None /\
  fwd false 0%Q (dpF dpOne) (ones exX) (map (@AX R) exX) = None /\ dep_run (dpF (V 0)) true [true] = Some [true] /\ issome (fwd false 0%Q (dpF (V 0)) (ones exX) (map (@AX R) exX)) = true.
Proof.
  assert (HS : smallj (dpF dpOne)) by (unfold dpF, exBody; small_prog).
  split; [exact HS|]. split; [exact dpF_typed|]. split; [vm_compute; reflexivity|]. split; [reflexivity|]. split; [|split; [reflexivity|vm_compute; reflexivity]].
  apply C49_changed_dependence_raises; [exact HS|reflexivity].
Qed.
(* a comparison with a dependent operand is plain, the product with it is not *)
Example C49_flags : dep_run (Jaxpr [] [0] [] [pe (PConst op_mul) [V 0; V 0] 1; pe PMul [V 1; V 0] 2; pe PMul [V 1; ALit (lits [2] [1; 1]%R)] 3] [V 1; V 2; V 3]) true [true] = Some [false; true; false].
Proof. reflexivity. Qed.
