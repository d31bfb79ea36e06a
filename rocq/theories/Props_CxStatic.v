(* Props_CxStatic.v : C02, C03, C04 and C08 for every sparsity threshold, for programs that also compute with complex arrays. *)
From Coq Require Import Reals Lra QArith.
From Coquelicot Require Import Coquelicot.
From Verif Require Export Props_Static Props_Cplx2 CxStatic.
Set Implicit Arguments.
Open Scope nat_scope.
Local Notation fwd c2r := (forward_laplacian (prim_reg c2r) (name_reg c2r) c2r).

(* ---- C02, C03 and C47: whatever the threshold, the result is exact for every program, scans included, whose primitives are twice differentiable where it
   is evaluated and static (cstatic_prim), functions of complex arrays included, and which applies functions of complex arrays to complex arrays only
   (typed_complex, decided from the program text).  Missing for the full C02: the programs that cstatic_prim excludes, most of which are refuted (C02, C13, C17, C21, C24). ---- *)
Theorem C02_static_complex_programs_exact_partial : forall (c2r : bool) (t : Q) (j : @jaxpr R prim) (ws xs : list (nd R)) (rs : list (arg R)),
  0 < total (map (@sh R) xs) -> wts_ok ws xs -> smallj j -> typed_complex j -> cstatic_run j true xs ->
  fwd c2r t j ws (map (@AX R) xs) = Some rs -> exact_at (plain_run j true) xs (coord_weight ws xs) rs.
Proof. intros c2r t j ws xs rs Hn HW HS HM HR H. apply (@forward_cstatic c2r t j ws xs rs Hn HW HS HM HR H). Qed.
Print Assumptions C02_static_complex_programs_exact_partial.
(* hence any two thresholds give the same values, derivatives and Laplacians *)
Theorem C02_complex_thresholds_agree_partial : forall (c2r : bool) (t t' : Q) (j : @jaxpr R prim) (ws xs : list (nd R)) (rs rs' : list (arg R)),
  0 < total (map (@sh R) xs) -> wts_ok ws xs -> smallj j -> typed_complex j -> cstatic_run j true xs ->
  fwd c2r t j ws (map (@AX R) xs) = Some rs -> fwd c2r t' j ws (map (@AX R) xs) = Some rs' ->
  length rs = length rs' /\ forall m, m < length rs -> let r := nth m rs (AX nd0) in let r' := nth m rs' (AX nd0) in sh (aval r) = sh (aval r') /\
    forall p, inb p (sh (aval r)) -> at_ (aval r) p = at_ (aval r') p /\ (forall i, i < total (map (@sh R) xs) -> jac_row r i p = jac_row r' i p) /\ lap_of r p = lap_of r' p.
Proof.
  intros c2r t t' j ws xs rs rs' Hn HW HS HM HR H H'. apply (@exact_unique (plain_run j true) xs (coord_weight ws xs)).
  - exact (@C02_static_complex_programs_exact_partial c2r t j ws xs rs Hn HW HS HM HR H).
  - exact (@C02_static_complex_programs_exact_partial c2r t' j ws xs rs' Hn HW HS HM HR H').
Qed.
Print Assumptions C02_complex_thresholds_agree_partial.
(* ---- C47: the real and the imaginary part of a complex result (output m, stored with a last axis of length 2) carry the exact first derivatives with
   respect to every real input and the exact sum of the second derivatives, for every threshold ---- *)
(* specification: part c (0 real, 1 imaginary) of element p of the complex output m of F *)
Definition part_at (F : list (nd R) -> option (list (nd R))) (m : nat) (c : nat) (p : ix) (xs : list (nd R)) : R := match F xs with Some ys => comp c (at_ (join2 (nth m ys nd0)) p) | None => 0%R end.
Theorem C47_complex_outputs_exact_any_threshold : forall (c2r : bool) (t : Q) (j : @jaxpr R prim) (xs : list (nd R)) (rs : list (arg R)) (m : nat) (p : ix) (c : nat),
  let n := total (map (@sh R) xs) in let r := nth m rs (AX nd0) in
  0 < n -> smallj j -> typed_complex j -> cstatic_run j true xs -> fwd c2r t j (ones xs) (map (@AX R) xs) = Some rs ->
  m < length rs -> iscx (aval r) -> inb p (sh (join2 (aval r))) -> c < 2 ->
  comp c (at_ (join2 (aval r)) p) = part_at (plain_run j true) m c p xs /\
  exists h : nat -> R, (forall i, i < n -> let phi := fun u => part_at (plain_run j true) m c p (CalcTop.move xs i u) in
      is_derive phi 0%R (jac_row r i (p ++ [c])) /\ is_derive_n phi 2 0%R (h i)) /\
    lap_of r (p ++ [c]) = sumn n h.
Proof.
  intros c2r t j xs rs m p c n r Hn HS HM HR H Hm HX Hp Hc.
  assert (EX : exact (plain_run j true) xs rs) by (apply (@exact_ones _ xs (coord_weight (ones xs) xs)); [apply ones_weight|]; exact (@C02_static_complex_programs_exact_partial c2r t j (ones xs) xs rs Hn (ones_ok xs) HS HM HR H)).
  assert (EP : forall (x : nd R), comp c (at_ (join2 x) p) = at_ x (p ++ [c])) by (intros x; destruct c as [|[|c]]; [reflexivity|reflexivity|lia]).
  assert (EF : forall zs, part_at (plain_run j true) m c p zs = out_at (plain_run j true) m (p ++ [c]) zs) by (intros zs; unfold part_at, out_at; destruct (plain_run j true zs); [apply EP|reflexivity]).
  destruct EX as (ys & E1 & E2 & E3). destruct (E3 m Hm) as [F1 F2]. fold r in F1, F2.
  assert (Hq : inb (p ++ [c]) (sh (nth m ys nd0))) by (rewrite <- F1; rewrite (join_sh HX); apply inb_snoc; assumption).
  destruct (F2 _ Hq) as (G1 & h & G2 & G3). split; [rewrite EF; unfold out_at; rewrite E1, EP; exact G1|].
  exists h. split; [|exact G3]. intros i Hi. destruct (G2 i Hi) as (K1 & K2). cbv zeta in K1, K2 |- *. split.
  - apply is_derive_ext with (2 := K1). intros u. symmetry. apply EF.
  - apply is_derive_n_ext with (2 := K2). intros u. symmetry. apply EF.
Qed.
Print Assumptions C47_complex_outputs_exact_any_threshold.
(* ---- C04 for every threshold of the first call, and a second threshold that is not larger; the second program may take complex results of the first ---- *)
Theorem C04_composition_static_complex_partial : forall (c2r : bool) (t t2 : Q) (f g : @jaxpr R prim) (ms : list bool) (ws ws2 xs : list (nd R)) (rs rs2 : list (arg R)),
  0 < total (map (@sh R) xs) -> wts_ok ws xs -> smallj f -> smallj g ->
  (* f is typed, its outputs ms (true = complex) are typed inputs of g *)
  mk_run f true (map (fun _ => false) (j_ivs f)) = Some ms -> mk_run g true ms <> None ->
  cstatic_run f true xs -> (forall ys, plain_run f true xs = Some ys -> cstatic_run g true ys) ->
  fwd c2r t f ws (map (@AX R) xs) = Some rs -> existsb (@is_al R) rs = true -> (th_of t2 rs <= th_of t (map (@AX R) xs))%Z -> fwd c2r t2 g ws2 rs = Some rs2 ->
  exact_at (then_ f g) xs (coord_weight ws xs) rs2.
Proof. intros c2r t t2 f g ms ws ws2 xs rs rs2 Hn HW Sf Sg Mf Mg Rf Rg Hf He Hle Hg. apply (@compose_cstatic c2r t t2 f g ms ws ws2 xs rs rs2 Hn HW Sf Sg Mf Mg Rf Hf He Hle Rg Hg). Qed.
Print Assumptions C04_composition_static_complex_partial.

(* ================= examples ================= *)
(* f(x) = (z exp z, Re(z exp z), sum_j sin x_j) with z = x + i at x = (2, 3), threshold 1: the complex arrays have sparse Jacobians, the product mixes two *)
Definition czF : @jaxpr R prim := Jaxpr [] [0] []
  [pe (PCplx (CCross XComplex)) [V 0] 1; pe (PCplx (CKern (KLin CAdd))) [V 1; exI] 2; pe (PCplx (CKern (KFun 1 (EExp (EVar 0))))) [V 2] 3; pe (PCplx (CKern KMul)) [V 2; V 3] 4; pe (PCplx (CCross XRe)) [V 4] 5; pe (PUn USin) [V 0] 6; pe (PSum [0]) [V 6] 7] [V 4; V 5; V 7].
Lemma czF_static : cstatic_run czF true exX.
Proof. unfold cstatic_run, czF, exX. cbn -[prim_op applies diff_at o_fwd]. repeat match goal with |- _ /\ _ => split end; try cfits; repeat constructor. Qed.
Example C02_static_complex_hypotheses_met : 0 < total (map (@sh R) exX) /\ wts_ok (ones exX) exX /\ smallj czF /\ typed_complex czF /\ cstatic_run czF true exX /\
  sparse_of (fwd false 1%Q czF (ones exX) (map (@AX R) exX)) = Some [true; true; false] /\ sparse_of (fwd false 0%Q czF (ones exX) (map (@AX R) exX)) = Some [false; false; false].
Proof.
  split; [vm_compute; repeat constructor|]. split; [apply ones_ok|]. split; [unfold czF; small_prog|]. split; [vm_compute; discriminate|]. split; [exact czF_static|]. split; vm_compute; reflexivity.
Qed.
(* the same program with the modulus of the real array x: not typed *)
Example typed_complex_rejects : ~ typed_complex (Jaxpr [] [0] [] [pe (PCplx CAbs) [V 0] 1] [V 1]).
Proof. intros H. apply H. vm_compute. reflexivity. Qed.
