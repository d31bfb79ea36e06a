(* Props_Flow.v : C02, C03, C04, C08 and C47 for every sparsity threshold, for programs described by data flow (Flow.v): determinants, scatter and dynamic indexing included. *)
From Coq Require Import Reals Lra QArith.
From Coquelicot Require Import Coquelicot.
From Verif Require Export Props_CxSparse Props_Slog Flow.
Set Implicit Arguments.
Open Scope nat_scope.
Local Notation fwd c2r := (forward_laplacian (prim_reg c2r) (name_reg c2r) c2r).

(* ---- C02, C03 and C47: whatever the threshold and the weights, the result consists of the values, the weighted partial derivatives and the weighted sums of
   second partial derivatives, for every program, scans included, whose primitives are twice differentiable where it is evaluated and whose data flow is regular
   (flow_run): an equation is examined only if one of its operands depends on the inputs; sums, products, reductions, determinants and casts combine operands of any layout;
   the other functions of several dependent operands need operands of one layout.
   Missing for the full C02: the programs that flow_run excludes, most of which are refuted (C02, C13, C17, C21, C24, C39). ---- *)
Theorem C02_flow_programs_exact_partial : forall (c2r : bool) (t : Q) (j : @jaxpr R prim) (ws xs : list (nd R)) (rs : list (arg R)),
  0 < total (map (@sh R) xs) -> wts_ok ws xs -> smallj j -> typed_complex j -> flow_run j true (inputs_flow xs) ->
  fwd c2r t j ws (map (@AX R) xs) = Some rs -> exact_at (plain_run j true) xs (coord_weight ws xs) rs.
Proof. intros c2r t j ws xs rs Hn HW HS HM HR H. apply (@forward_flow c2r t j ws xs rs Hn HW HS HM HR H). Qed.
Print Assumptions C02_flow_programs_exact_partial.
(* hence any two thresholds give the same values, derivatives and Laplacians *)
Theorem C02_flow_thresholds_agree_partial : forall (c2r : bool) (t t' : Q) (j : @jaxpr R prim) (ws xs : list (nd R)) (rs rs' : list (arg R)),
  0 < total (map (@sh R) xs) -> wts_ok ws xs -> smallj j -> typed_complex j -> flow_run j true (inputs_flow xs) ->
  fwd c2r t j ws (map (@AX R) xs) = Some rs -> fwd c2r t' j ws (map (@AX R) xs) = Some rs' ->
  length rs = length rs' /\ forall m, m < length rs -> let r := nth m rs (AX nd0) in let r' := nth m rs' (AX nd0) in sh (aval r) = sh (aval r') /\
    forall p, inb p (sh (aval r)) -> at_ (aval r) p = at_ (aval r') p /\ (forall i, i < total (map (@sh R) xs) -> jac_row r i p = jac_row r' i p) /\ lap_of r p = lap_of r' p.
Proof.
  intros c2r t t' j ws xs rs rs' Hn HW HS HM HR H H'. apply (@exact_unique (plain_run j true) xs (coord_weight ws xs)).
  - exact (@C02_flow_programs_exact_partial c2r t j ws xs rs Hn HW HS HM HR H).
  - exact (@C02_flow_programs_exact_partial c2r t' j ws xs rs' Hn HW HS HM HR H').
Qed.
Print Assumptions C02_flow_thresholds_agree_partial.
(* ---- C04: composition.  The second program sees the layouts lrun computes for the outputs of the first; if its threshold is larger than the first one,
   outputs that are neither constant nor certainly dense have unknown layout (relay) ---- *)
Theorem C04_composition_flow_partial : forall (c2r : bool) (t t2 : Q) (f g : @jaxpr R prim) (ms : list bool) (ws ws2 xs : list (nd R)) (zs : list (nd R * lay)) (rs rs2 : list (arg R)),
  0 < total (map (@sh R) xs) -> wts_ok ws xs -> smallj f -> smallj g ->
  mk_run f true (map (fun _ => false) (j_ivs f)) = Some ms -> mk_run g true ms <> None ->
  flow_run f true (inputs_flow xs) -> lrun f true (inputs_flow xs) = Some zs ->
  fwd c2r t f ws (map (@AX R) xs) = Some rs -> existsb (@is_al R) rs = true ->
  flow_run g true (map (relay (th_of t2 rs <=? th_of t (map (@AX R) xs))%Z) zs) -> fwd c2r t2 g ws2 rs = Some rs2 ->
  exact_at (then_ f g) xs (coord_weight ws xs) rs2.
Proof. intros c2r t t2 f g ms ws ws2 xs zs rs rs2 Hn HW Sf Sg Mf Mg Rf Hz Hf He Rg Hg. apply (@compose_flow c2r t t2 f g ms ws ws2 xs zs rs rs2 Hn HW Sf Sg Mf Mg Rf Hz Hf He Rg Hg). Qed.
Print Assumptions C04_composition_flow_partial.

(* ---- C53: for a safe program of regular data flow, forward_laplacian returns for every threshold and every weights; what it returns is the plain evaluation of the
   program with its weighted first derivatives and its weighted sum of second derivatives, and is the same for every threshold ---- *)
Theorem C53_returns_and_exact : forall (c2r : bool) (t : Q) (j : @jaxpr R prim) (ws xs ys : list (nd R)),
  0 < total (map (@sh R) xs) -> (forall x, In x xs -> ne (sh x)) -> wts_ok ws xs -> smallj j -> typed_complex j ->
  csafe_run j true (map (fun x => (x, true)) xs) -> flow_run j true (inputs_flow xs) -> plain_run j true xs = Some ys ->
  exists rs, fwd c2r t j ws (map (@AX R) xs) = Some rs /\ map (@aval R) rs = ys /\ exact_at (plain_run j true) xs (coord_weight ws xs) rs.
Proof.
  intros c2r t j ws xs ys Hn Hne HW HS HM HR HF HP. destruct (@forward_returnsC c2r t j ws xs ys Hn HW HS Hne HM HR HP) as (rs & E1 & E2). exists rs. split; [exact E1|]. split; [exact E2|].
  exact (@C02_flow_programs_exact_partial c2r t j ws xs rs Hn HW HS HM HF E1).
Qed.
Print Assumptions C53_returns_and_exact.
Theorem C53_threshold_is_irrelevant : forall (c2r : bool) (j : @jaxpr R prim) (ws xs ys : list (nd R)),
  0 < total (map (@sh R) xs) -> (forall x, In x xs -> ne (sh x)) -> wts_ok ws xs -> smallj j -> typed_complex j ->
  csafe_run j true (map (fun x => (x, true)) xs) -> flow_run j true (inputs_flow xs) -> plain_run j true xs = Some ys ->
  forall t t' : Q, exists rs rs', fwd c2r t j ws (map (@AX R) xs) = Some rs /\ fwd c2r t' j ws (map (@AX R) xs) = Some rs' /\
  length rs = length rs' /\ forall m, m < length rs -> let r := nth m rs (AX nd0) in let r' := nth m rs' (AX nd0) in sh (aval r) = sh (aval r') /\
    forall p, inb p (sh (aval r)) -> at_ (aval r) p = at_ (aval r') p /\ (forall i, i < total (map (@sh R) xs) -> jac_row r i p = jac_row r' i p) /\ lap_of r p = lap_of r' p.
Proof.
  intros c2r j ws xs ys Hn Hne HW HS HM HR HF HP t t'. destruct (@C53_returns_and_exact c2r t j ws xs ys Hn Hne HW HS HM HR HF HP) as (rs & E1 & _). destruct (@C53_returns_and_exact c2r t' j ws xs ys Hn Hne HW HS HM HR HF HP) as (rs' & E2 & _).
  exists rs, rs'. split; [exact E1|]. split; [exact E2|]. exact (@C02_flow_thresholds_agree_partial c2r t t' j ws xs rs rs' Hn HW HS HM HF E1 E2).
Qed.
Print Assumptions C53_threshold_is_irrelevant.

(* ================= examples ================= *)
(* a wave function: f(x) = (log|det x| + s, s log|det x|) with s = sum_ij sin x_ij, for a 2 x 2 matrix x, threshold 1: sin x has a sparse Jacobian, log|det x| a dense one *)
Definition flF : @jaxpr R prim := Jaxpr [] [0] []
  [Eqn (KPjit 5 slBody) [V 0] [1; 2]; pe (PUn USin) [V 0] 3; pe (PSum [0; 1]) [V 3] 4; pe (PLin LAdd) [V 2; V 4] 5; pe PMul [V 2; V 4] 6] [V 5; V 6; V 3].
Ltac fits2 := match goal with
  | |- applies (PSum [0; 1]) _ => eexists; split; [reflexivity|]; split; [discriminate|]; split; [repeat constructor; cbn; intros K; repeat destruct K as [K|K]; discriminate || contradiction|]; intros ? [<-|[<-|[]]]; vm_compute; repeat constructor
  | |- applies (PLin _) _ => split; [reflexivity|vm_compute; discriminate] end.
Lemma flF_flow : flow_run flF true (inputs_flow slX).
Proof.
  unfold flF, slBody, slX, inputs_flow. cbn -[prim_op applies diff_at o_fwd flow_prim]. split.
  - split; [|split; [|intros _; split; [|exact I]]].
    + intros ys Hy. destruct ys as [|y [|? ?]]; try discriminate. reflexivity.
    + exists (lits [2; 2] [2; 1; 1; 3]%R), [], 2. split; reflexivity.
    + intros p Hp. cbn in Hp. inversion Hp; subst. vm_compute. lra.
  - repeat match goal with |- _ /\ _ => split | |- _ <> _ -> _ => intros _ | |- flow_prim _ _ => exact I end; try fits2; try fits; repeat constructor.
Qed.
Example C02_flow_hypotheses_met : 0 < total (map (@sh R) slX) /\ wts_ok (ones slX) slX /\ smallj flF /\ typed_complex flF /\ flow_run flF true (inputs_flow slX) /\
  sparse_of (fwd false 1%Q flF (ones slX) (map (@AX R) slX)) = Some [false; false; true] /\ sparse_of (fwd false 0%Q flF (ones slX) (map (@AX R) slX)) = Some [false; false; false].
Proof.
  split; [vm_compute; repeat constructor|]. split; [apply ones_ok|]. split; [unfold flF, slBody; small_prog|]. split; [vm_compute; discriminate|]. split; [exact flF_flow|]. split; vm_compute; reflexivity.
Qed.
Lemma flF_safe : csafe_run flF true (map (fun x => (x, true)) slX).
Proof.
  unfold csafe_run, flF, slBody, slX. cbn -[prim_op applies diff_at o_fwd csafe_prim]. split.
  - intros _. split; [|split; [|split]].
    + intros ys Hy. destruct ys as [|y [|? ?]]; try discriminate. reflexivity.
    + exists (lits [2; 2] [2; 1; 1; 3]%R), [], 2. split; reflexivity.
    + intros p Hp. cbn in Hp. inversion Hp; subst. vm_compute. lra.
    + split; [|exact I]. intros f [<-|[<-|[]]]; has_element.
  - repeat match goal with |- _ /\ _ => split | |- true = true -> _ => intros _ | |- csafe_prim _ _ => split; [intros ? [<-|[]]; has_element|try exact I; cbn; lia] end; try fits2; try fits; repeat constructor.
Qed.
Example C53_hypotheses_met : (forall x, In x slX -> ne (sh x)) /\ csafe_run flF true (map (fun x => (x, true)) slX) /\ flow_run flF true (inputs_flow slX) /\ issome (plain_run flF true slX) = true.
Proof. split; [intros x [<-|[]]; has_element|]. split; [exact flF_safe|]. split; [exact flF_flow|]. vm_compute. reflexivity. Qed.
(* g(a, b, c) = (a b, sum_ij c_ij^2), called on the result of f with a larger threshold *)
Definition flG : @jaxpr R prim := Jaxpr [] [0; 1; 2] [] [pe PMul [V 0; V 1] 3; pe PMul [V 2; V 2] 4; pe (PSum [0; 1]) [V 4] 5] [V 3; V 5].
Example C04_flow_hypotheses_met : exists ms zs, smallj flG /\ mk_run flF true (map (fun _ => false) (j_ivs flF)) = Some ms /\ mk_run flG true ms <> None /\ lrun flF true (inputs_flow slX) = Some zs /\
  flow_run flG true (map (relay true) zs) /\ flow_run flG true (map (relay false) zs) /\ map snd zs = [LA; LA; LT].
Proof.
  eexists. eexists. split; [unfold flG; small_prog|]. split; [vm_compute; reflexivity|]. split; [discriminate|]. split; [unfold flF, slBody, slX, inputs_flow; cbn -[prim_op o_fwd]; reflexivity|].
  split; [|split; [|reflexivity]]; unfold flG; cbn -[prim_op applies diff_at o_fwd flow_prim]; repeat match goal with |- _ /\ _ => split | |- _ <> _ -> _ => intros _ | |- flow_prim _ _ => exact I end; try fits2; try fits; repeat constructor.
Qed.
