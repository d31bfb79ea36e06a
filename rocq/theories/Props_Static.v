(* Props_Static.v : C02, C03 and C04 for every sparsity threshold, with a condition on plain evaluation of the program only. *)
From Coq Require Import Reals Lra QArith.
From Coquelicot Require Import Coquelicot.
From Verif Require Export Props_Calc TightCalc.
Set Implicit Arguments.
Open Scope nat_scope.
Local Notation fwd c2r := (forward_laplacian (prim_reg c2r) (name_reg c2r) c2r).

(* ---- C02 and C03: whatever the threshold, the result consists of the values, the weighted partial derivatives and the weighted sums of second partial
   derivatives, for every program, scans included, whose primitives are twice differentiable where it is evaluated and static (static_prim).
   Missing for the full C02: the programs that static_prim excludes, for which C02 is false (C02_sparsity_changes_the_result_refuted, C13_*_refuted, C24). ---- *)
Theorem C02_static_programs_exact_partial : forall (c2r : bool) (t : Q) (j : @jaxpr R prim) (ws xs : list (nd R)) (rs : list (arg R)),
  0 < total (map (@sh R) xs) -> wts_ok ws xs -> smallj j -> static_run j true xs ->
  fwd c2r t j ws (map (@AX R) xs) = Some rs -> exact_at (plain_run j true) xs (coord_weight ws xs) rs.
Proof. intros c2r t j ws xs rs Hn HW HS HR H. apply (@forward_static c2r t j ws xs rs Hn HW HS HR H). Qed.
Print Assumptions C02_static_programs_exact_partial.
(* hence any two thresholds give the same values, derivatives and Laplacians *)
Theorem C02_thresholds_agree_partial : forall (c2r : bool) (t t' : Q) (j : @jaxpr R prim) (ws xs : list (nd R)) (rs rs' : list (arg R)),
  0 < total (map (@sh R) xs) -> wts_ok ws xs -> smallj j -> static_run j true xs ->
  fwd c2r t j ws (map (@AX R) xs) = Some rs -> fwd c2r t' j ws (map (@AX R) xs) = Some rs' ->
  length rs = length rs' /\ forall m, m < length rs -> let r := nth m rs (AX nd0) in let r' := nth m rs' (AX nd0) in sh (aval r) = sh (aval r') /\
    forall p, inb p (sh (aval r)) -> at_ (aval r) p = at_ (aval r') p /\ (forall i, i < total (map (@sh R) xs) -> jac_row r i p = jac_row r' i p) /\ lap_of r p = lap_of r' p.
Proof.
  intros c2r t t' j ws xs rs rs' Hn HW HS HR H H'. apply (@exact_unique (plain_run j true) xs (coord_weight ws xs)).
  - exact (@C02_static_programs_exact_partial c2r t j ws xs rs Hn HW HS HR H).
  - exact (@C02_static_programs_exact_partial c2r t' j ws xs rs' Hn HW HS HR H').
Qed.
Print Assumptions C02_thresholds_agree_partial.
(* C01 in sparse mode *)
Theorem C01_sparse_mode_exact_partial : forall (c2r : bool) (t : Q) (j : @jaxpr R prim) (xs : list (nd R)) (rs : list (arg R)),
  0 < total (map (@sh R) xs) -> smallj j -> static_run j true xs ->
  fwd c2r t j (ones xs) (map (@AX R) xs) = Some rs -> exact (plain_run j true) xs rs.
Proof.
  intros c2r t j xs rs Hn HS HR H. apply (@exact_ones _ xs (coord_weight (ones xs) xs)); [apply ones_weight|]. exact (@C02_static_programs_exact_partial c2r t j (ones xs) xs rs Hn (ones_ok xs) HS HR H).
Qed.
Print Assumptions C01_sparse_mode_exact_partial.
(* ---- C08 for every threshold: at most one row per input; the derivatives in the remaining inputs are zero (jac_row in the theorems above reads zeros there) ---- *)
Theorem C08_rows_at_most_inputs : forall (c2r : bool) (t : Q) (j : @jaxpr R prim) (ws xs : list (nd R)) (rs : list (arg R)),
  0 < total (map (@sh R) xs) -> wts_ok ws xs -> smallj j -> static_run j true xs -> fwd c2r t j ws (map (@AX R) xs) = Some rs ->
  forall a, In (AL a) rs -> (exists p, inb p (sh (lx a))) -> exists J k, dense_array (ljac a) = Some J /\ sh J = k :: sh (lx a) /\ k <= total (map (@sh R) xs).
Proof.
  intros c2r t j ws xs rs Hn HW HS HR H a Ha (p & Hp). destruct (@forward_rows c2r t j ws xs rs Hn HW HS HR H a Ha) as ((HJ & _) & H1).
  destruct (@dense_array_spec0 R CRing_R (ljac a) _ _ (jwf_jwf0 HJ)) as (D & K & E1 & E2 & E3 & _).
  - unfold nonempty. destruct (jidx (ljac a)) as [m|] eqn:Em; [|exact I]. destruct HJ as (k & Sk & Hk). rewrite Em in Hk. destruct Hk as [Sm _]. unfold jrow1, weak in H1. rewrite Em, (rows_cons _ Sk) in H1. specialize (H1 eq_refl).
    exists (0 :: p). rewrite Sm. apply inb_cons. split; [lia|exact Hp].
  - exact Hn.
  - exists D, K. auto.
Qed.
Print Assumptions C08_rows_at_most_inputs.
(* ---- C04 for every threshold of the first call, and a second threshold that is not larger ---- *)
Theorem C04_composition_static_partial : forall (c2r : bool) (t t2 : Q) (f g : @jaxpr R prim) (ws ws2 xs : list (nd R)) (rs rs2 : list (arg R)),
  0 < total (map (@sh R) xs) -> wts_ok ws xs -> smallj f -> smallj g -> static_run f true xs -> (forall ys, plain_run f true xs = Some ys -> static_run g true ys) ->
  fwd c2r t f ws (map (@AX R) xs) = Some rs -> existsb (@is_al R) rs = true -> (th_of t2 rs <= th_of t (map (@AX R) xs))%Z -> fwd c2r t2 g ws2 rs = Some rs2 ->
  exact_at (then_ f g) xs (coord_weight ws xs) rs2.
Proof. intros c2r t t2 f g ws ws2 xs rs rs2 Hn HW Sf Sg Rf Rg Hf He Hle Hg. apply (@compose_static c2r t t2 f g ws ws2 xs rs rs2 Hn HW Sf Sg Rf Hf He Hle Rg Hg). Qed.
Print Assumptions C04_composition_static_partial.

(* ================= examples ================= *)
(* f(x) = (x[0:1] / x, (x[0:1] / x) * sum (sin x)) at x = (2, 3), threshold 1: x[0:1] / x mixes two sparse Jacobians, the product a sparse and a dense one *)
Definition stSlice : iop := Iop [1] (fun p => (0, p)).
Definition stF : @jaxpr R prim := Jaxpr [] [0] [] [pe (PIndex stSlice true false) [V 0] 1; pe PDiv [V 1; V 0] 2; pe (PUn USin) [V 0] 3; pe (PSum [0]) [V 3] 4; pe PMul [V 2; V 4] 5] [V 2; V 5].
Definition sparse_of (o : option (list (arg R))) : option (list bool) := option_map (map (fun v => match v with AL a => weak (ljac a) | AX _ => false end)) o.
Lemma stF_static : static_run stF true exX.
Proof.
  unfold static_run, stF, exX. cbn -[prim_op applies diff_at o_fwd]. repeat match goal with |- _ /\ _ => split end; try fits; try (left; reflexivity); try (right; reflexivity).
  - intros p Hp. cbn in *. split; [lia|]. inversion Hp as [|? ? ? ? H1 H2]; subst. inversion H2; subst. constructor; [lia|constructor].
  - left. repeat constructor.
  - intros q Hq. cbn in Hq. inversion Hq as [|a b l m H1 H2]; subst. inversion H2; subst. destruct a as [|[|a]]; [| |lia]; vm_compute; lra.
Qed.
Example C02_static_hypotheses_met : 0 < total (map (@sh R) exX) /\ wts_ok (ones exX) exX /\ smallj stF /\ static_run stF true exX /\
  th_of 1%Q (map (@AX R) exX) = 1%Z /\ sparse_of (fwd false 1%Q stF (ones exX) (map (@AX R) exX)) = Some [true; false] /\ sparse_of (fwd false 0%Q stF (ones exX) (map (@AX R) exX)) = Some [false; false].
Proof.
  split; [vm_compute; repeat constructor|]. split; [apply ones_ok|]. split; [unfold stF; small_prog|]. split; [exact stF_static|]. split; [vm_compute; reflexivity|]. split; vm_compute; reflexivity.
Qed.
(* composition of x[0:1] / x with itself *)
Definition stS : @jaxpr R prim := Jaxpr [] [0] [] [pe (PIndex stSlice true false) [V 0] 1; pe PMul [V 1; V 0] 2] [V 2].
Lemma stS_static (x : nd R) : sh x = [2] -> static_run stS true [x].
Proof.
  destruct x as [s f]. intros E. cbn in E. subst s. unfold static_run, stS. cbn -[prim_op applies diff_at o_fwd]. repeat match goal with |- _ /\ _ => split end; try reflexivity; try (right; reflexivity).
  - intros p Hp. cbn in *. split; [lia|]. inversion Hp as [|? ? ? ? H1 H2]; subst. inversion H2; subst. constructor; [lia|constructor].
  - left. repeat constructor.
  - split; [reflexivity|vm_compute; discriminate].
Qed.
Example C04_static_hypotheses_met : smallj stS /\ static_run stS true exX /\ (forall ys, plain_run stS true exX = Some ys -> static_run stS true ys) /\
  match fwd false 1%Q stS (ones exX) (map (@AX R) exX) with
  | Some rs => existsb (@is_al R) rs = true /\ (th_of 1%Q rs <= th_of 1%Q (map (@AX R) exX))%Z /\ sparse_of (Some rs) = Some [true] /\ sparse_of (fwd false 1%Q stS (ones exX) rs) = Some [true]
  | None => False end.
Proof.
  split; [unfold stS; small_prog|]. split; [apply stS_static; reflexivity|]. split.
  - intros ys H. apply (f_equal (option_map (map (@sh R)))) in H. assert (E : option_map (map (@sh R)) (plain_run stS true exX) = Some [[2]]) by (vm_compute; reflexivity). rewrite E in H. cbn in H. destruct ys as [|y [|? ?]]; try discriminate. apply stS_static. cbn in H. congruence.
  - vm_compute. repeat split. discriminate.
Qed.
