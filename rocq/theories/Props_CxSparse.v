(* Props_CxSparse.v : property theorem C50 for programs with complex arrays. *)
From Coq Require Import Reals Lra QArith.
From Coquelicot Require Import Coquelicot.
From Verif Require Export Props_CxStatic Props_SparseTotal CxSparse.
Set Implicit Arguments.
Open Scope nat_scope.
Local Notation fwd c2r := (forward_laplacian (prim_reg c2r) (name_reg c2r) c2r).

(* ---- C50: for every sparsity threshold, forward_laplacian returns on every program that JAX evaluates, in which no function of complex arrays is applied to an
   array of real numbers (typed_complex) and whose equations are safe (csafe_run: a condition on plain evaluation and data flow only); the values of the result
   are those of plain evaluation.  The programs now include complex arrays: arithmetic, holomorphic functions, real, imag, conj, the modulus and slogdet.
   The full C50 is false (C50_*_refuted, Props_SparseTotal.v).  Missing: the programs that csafe_run excludes. ---- *)
Theorem C50_safe_complex_programs_return_partial : forall (c2r : bool) (t : Q) (j : @jaxpr R prim) (ws xs ys : list (nd R)),
  0 < total (map (@sh R) xs) -> wts_ok ws xs -> smallj j -> (forall x, In x xs -> ne (sh x)) -> typed_complex j -> csafe_run j true (map (fun x => (x, true)) xs) -> plain_run j true xs = Some ys ->
  exists rs, fwd c2r t j ws (map (@AX R) xs) = Some rs /\ map (@aval R) rs = ys.
Proof. exact forward_returnsC. Qed.
Print Assumptions C50_safe_complex_programs_return_partial.
(* ... and when the program is also static (C02), the result is exact: every threshold returns the same derivatives and Laplacians *)
Theorem C50_safe_static_complex_programs_exact_partial : forall (c2r : bool) (t : Q) (j : @jaxpr R prim) (ws xs ys : list (nd R)),
  0 < total (map (@sh R) xs) -> wts_ok ws xs -> smallj j -> (forall x, In x xs -> ne (sh x)) -> typed_complex j -> csafe_run j true (map (fun x => (x, true)) xs) -> cstatic_run j true xs -> plain_run j true xs = Some ys ->
  exists rs, fwd c2r t j ws (map (@AX R) xs) = Some rs /\ map (@aval R) rs = ys /\ exact_at (plain_run j true) xs (coord_weight ws xs) rs.
Proof.
  intros c2r t j ws xs ys Hn HW HS Hne HTy HR HT HP. destruct (@forward_returnsC c2r t j ws xs ys Hn HW HS Hne HTy HR HP) as (rs & E1 & E2). exists rs. split; [exact E1|]. split; [exact E2|]. exact (proj1 (@forward_cstatic c2r t j ws xs rs Hn HW HS HTy HT E1)).
Qed.
Print Assumptions C50_safe_static_complex_programs_exact_partial.
(* one primitive on stored complex arrays: whatever FwdLaplArrays it is applied to, the registered rule returns its value *)
Theorem C50_complex_rules_return_partial : forall (c2r : bool) (th : Z) (n : nat) (c : cprim) (args : list (arg R)),
  0 < n -> (forall v, In v args -> goodv n v) -> als args <> [] -> cx_applies c (map (@aval R) args) -> cx_diff c (map (@aval R) args) -> Forall paired args -> csafe_prim (PCplx c) (map fv args) ->
  exists a, cx_run c c2r th args = Some (AL a) /\ good n a /\ lx a = o_fwd (cx_op c) (map (@aval R) args).
Proof. intros c2r th n c args Hn HG Hne HA HD HP HS. refine (@cx_returns c2r th n Hn c args HG Hne HA HD _ HS). destruct c as [k|k|]; auto. destruct k; auto. Qed.
Print Assumptions C50_complex_rules_return_partial.

(* ================= examples ================= *)
(* f(x) = (z exp z, Re(z exp z), |z exp z|) with z = x + i at x = (2, 3), threshold 1: every Jacobian is sparse *)
Definition csF : @jaxpr R prim := Jaxpr [] [0] []
  [pe (PCplx (CCross XComplex)) [V 0] 1; pe (PCplx (CKern (KLin CAdd))) [V 1; exI] 2; pe (PCplx (CKern (KFun 1 (EExp (EVar 0))))) [V 2] 3; pe (PCplx (CKern KMul)) [V 2; V 3] 4; pe (PCplx (CCross XRe)) [V 4] 5; pe (PCplx CAbs) [V 2] 6] [V 4; V 5; V 6].
Ltac cone := match goal with |- csafe_prim (PCplx _) _ => split; [let f := fresh in let Hf := fresh in intros f Hf; cbn [prim_ops In] in Hf; destruct Hf as [<-|[]]; has_element|] end.
Lemma csF_safe : csafe_run csF true (map (fun x => (x, true)) exX).
Proof.
  unfold csF, exX, csafe_run. cbn -[prim_op applies diff_at o_fwd csafe_prim]. repeat match goal with |- _ /\ _ => split | |- true = true -> _ => intros _ end; try cfits; try cone; try exact I.
  - cbn. lia.
  - split; [cbn; lia|]. intros s t H1 H2. vm_compute in H1, H2. injection H1 as <-. injection H2 as <-. reflexivity.
  - intros p Hp. change (inb p [2]) in Hp. inversion Hp as [|a b l m H1 H2]; subst. inversion H2; subst. intros H. apply (f_equal snd) in H. destruct a as [|[|a]]; [| |lia]; vm_compute in H; lra.
Qed.
Example C50_complex_hypotheses_met : 0 < total (map (@sh R) exX) /\ wts_ok (ones exX) exX /\ smallj csF /\ (forall x, In x exX -> ne (sh x)) /\ typed_complex csF /\ csafe_run csF true (map (fun x => (x, true)) exX) /\
  issome (plain_run csF true exX) = true /\ th_of 1%Q (map (@AX R) exX) = 1%Z /\ sparse_of (fwd false 1%Q csF (ones exX) (map (@AX R) exX)) = Some [true; true; true].
Proof.
  split; [vm_compute; repeat constructor|]. split; [apply ones_ok|]. split; [unfold csF; small_prog|]. split; [intros x [<-|[]]; has_element|]. split; [vm_compute; discriminate|]. split; [exact csF_safe|]. split; [vm_compute; reflexivity|]. split; vm_compute; reflexivity.
Qed.
(* czF (Props_CxStatic.v) is static and safe *)
Lemma czF_safe : csafe_run czF true (map (fun x => (x, true)) exX).
Proof.
  unfold czF, exX, csafe_run. cbn -[prim_op applies diff_at o_fwd csafe_prim]. repeat match goal with |- _ /\ _ => split | |- true = true -> _ => intros _ end; try cfits; try cone; try exact I.
  - cbn. lia.
  - split; [cbn; lia|]. intros s t H1 H2. vm_compute in H1, H2. injection H1 as <-. injection H2 as <-. reflexivity.
  - split; [|exact I]. intros f Hf. cbn [prim_ops In] in Hf. destruct Hf as [<-|[]]. has_element.
  - split; [|exact I]. intros f Hf. cbn [prim_ops In] in Hf. destruct Hf as [<-|[]]. has_element.
Qed.
Example C50_static_complex_hypotheses_met : smallj czF /\ typed_complex czF /\ csafe_run czF true (map (fun x => (x, true)) exX) /\ cstatic_run czF true exX /\ issome (plain_run czF true exX) = true.
Proof. split; [unfold czF; small_prog|]. split; [vm_compute; discriminate|]. split; [exact czF_safe|]. split; [exact czF_static|]. vm_compute. reflexivity. Qed.
