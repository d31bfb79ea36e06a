(* Props_SparseTotal.v : property theorem C50: enabling sparsity does not make forward_laplacian raise. *)
From Coq Require Import Reals Lra QArith.
From Coquelicot Require Import Coquelicot.
From Verif Require Export Props_Reg Props_Static SparseProg.
Set Implicit Arguments.
Open Scope nat_scope.
Local Notation fwd c2r := (forward_laplacian (prim_reg c2r) (name_reg c2r) c2r).

(* ---- C50: for every sparsity threshold, forward_laplacian returns on every program that JAX evaluates and whose equations are safe (safe_run: a condition on
   plain evaluation and data flow only), and the values of the result are those of plain evaluation.
   The full C50 asks this of every program on which threshold 0 returns; it is false (C50_*_refuted below).  Missing: the programs that safe_run excludes. ---- *)
Theorem C50_safe_programs_return_partial : forall (c2r : bool) (t : Q) (j : @jaxpr R prim) (ws xs ys : list (nd R)),
  0 < total (map (@sh R) xs) -> wts_ok ws xs -> smallj j -> (forall x, In x xs -> ne (sh x)) -> safe_run j true (map (fun x => (x, true)) xs) -> plain_run j true xs = Some ys ->
  exists rs, fwd c2r t j ws (map (@AX R) xs) = Some rs /\ map (@aval R) rs = ys.
Proof. exact forward_returns. Qed.
Print Assumptions C50_safe_programs_return_partial.
(* ... and when the program is also static (C02), the result is exact: every threshold returns the same derivatives and Laplacians *)
Theorem C50_safe_static_programs_exact_partial : forall (c2r : bool) (t : Q) (j : @jaxpr R prim) (ws xs ys : list (nd R)),
  0 < total (map (@sh R) xs) -> wts_ok ws xs -> smallj j -> (forall x, In x xs -> ne (sh x)) -> safe_run j true (map (fun x => (x, true)) xs) -> static_run j true xs -> plain_run j true xs = Some ys ->
  exists rs, fwd c2r t j ws (map (@AX R) xs) = Some rs /\ map (@aval R) rs = ys /\ exact_at (plain_run j true) xs (coord_weight ws xs) rs.
Proof.
  intros c2r t j ws xs ys Hn HW HS Hne HR HT HP. destruct (@C50_safe_programs_return_partial c2r t j ws xs ys Hn HW HS Hne HR HP) as (rs & E1 & E2). exists rs. split; [exact E1|]. split; [exact E2|]. exact (@C02_static_programs_exact_partial c2r t j ws xs rs Hn HW HS HT E1).
Qed.
Print Assumptions C50_safe_static_programs_exact_partial.
(* one primitive: whatever FwdLaplArrays it is applied to (with any mixture of sparse and dense Jacobians in which every element stores a dependence, good), the
   registered rule returns the value of the primitive, and the result is again such a FwdLaplArray *)
Theorem C50_registered_rules_return_partial : forall (c2r : bool) (th : Z) (n : nat) (k : prim) (args : list (arg R)),
  0 < n -> (forall v, In v args -> goodv n v) -> als args <> [] -> applies k (map (@aval R) args) -> diff_at k (map (@aval R) args) -> safe_prim k (map fv args) ->
  exists rs, eval_prim (prim_reg c2r) c2r k (prim_ops k) th args = Some rs /\ map (@aval R) rs = map (fun f => o_fwd f (map (@aval R) args)) (prim_ops k) /\ forall v, In v rs -> goodv n v.
Proof. intros c2r th n k args Hn HG Hne HA HD HS. exact (@prim_returns c2r th n Hn k args HG Hne HA HD HS). Qed.
Print Assumptions C50_registered_rules_return_partial.
Lemma in_als_iff (args : list (arg R)) a : In (AL a) args <-> In a (als args).
Proof. induction args as [|[b|y] l IH]; cbn; [tauto| |]; rewrite <- IH; split; [intros [E|H]; [left; congruence|auto]|intros [E|H]; [left; congruence|auto]|intros [E|H]; [discriminate|auto]|auto]. Qed.
Lemma unmixed_als (args : list (arg R)) : (forall a, In (AL a) args -> weak (ljac a) = true) \/ (forall a, In (AL a) args -> weak (ljac a) = false) \/ length (als args) <= 2 <->
  length (als args) <= 2 \/ any_weak (als args) = false \/ all_weak (als args) = true.
Proof.
  assert (E1 : (forall a, In (AL a) args -> weak (ljac a) = true) <-> all_weak (als args) = true).
  { unfold all_weak. rewrite forallb_forall. split; intros H a Ha; apply H, in_als_iff, Ha. }
  assert (E2 : (forall a, In (AL a) args -> weak (ljac a) = false) <-> any_weak (als args) = false).
  { unfold any_weak. split.
    - intros H. destruct (existsb _ (als args)) eqn:E; [|reflexivity]. apply existsb_exists in E. destruct E as (a & Ha & Wa). rewrite (H a (proj2 (in_als_iff _ _) Ha)) in Wa. discriminate.
    - intros H a Ha. destruct (weak (ljac a)) eqn:E; [|reflexivity]. rewrite <- H. symmetry. apply existsb_exists. exists a. split; [apply in_als_iff; exact Ha|exact E]. }
  rewrite E1, E2. tauto.
Qed.
(* index operations (concatenate, slice, gather, ...) of any number of operands, as long as the Jacobians of the dependent ones are all sparse or all dense, or at most two of
   them are dependent.  Missing: three or more operands with sparse and dense Jacobians, for which it is false (C50_concatenation_of_three_raises_refuted). *)
Theorem C50_index_operations_return_partial : forall (c2r : bool) (th : Z) (n : nat) (g : iop) (known filled : bool) (args : list (arg R)),
  0 < n -> (forall v, In v args -> goodv n v) -> (exists a, In (AL a) args) -> applies (PIndex g known filled) (map (@aval R) args) -> ne (i_shape g) ->
  (known = true -> forall p, inb p (i_shape g) -> is_al (nth (fst (i_src g p)) args (AX nd0)) = true) ->
  (forall a, In (AL a) args -> weak (ljac a) = true) \/ (forall a, In (AL a) args -> weak (ljac a) = false) \/ length (als args) <= 2 ->
  exists a, eval_prim (prim_reg c2r) c2r (PIndex g known filled) (prim_ops (PIndex g known filled)) th args = Some [AL a] /\ lx a = o_fwd (iop_op g) (map (@aval R) args) /\ goodv n (AL a).
Proof.
  intros c2r th n g known filled args Hn HG (a0 & Ha0) HA NE HS HM.
  assert (HI : forall a, In (AL a) args <-> In a (als args)) by (intros a; clear; induction args as [|[b|y] l IH]; cbn; [tauto| |]; rewrite <- IH; split; [intros [E|H]; [left; congruence|auto]|intros [E|H]; [left; congruence|auto]|intros [E|H]; [discriminate|auto]|auto]).
  destruct (@index_rule_any R CRing_R n g known filled c2r th args Hn) as (a & Ea & Ga & Va); auto.
  - intros X. apply HI in Ha0. rewrite X in Ha0. destruct Ha0.
  - destruct HM as [H|[H|H]]; [right; right|right; left|left; exact H].
    + apply forallb_forall. intros a Ha. apply H, HI, Ha.
    + unfold any_weak. destruct (existsb _ (als args)) eqn:E; [|reflexivity]. apply existsb_exists in E. destruct E as (a & Ha & Wa). rewrite (H a (proj2 (HI a) Ha)) in Wa. discriminate.
  - exists a. unfold eval_prim. cbn [prim_reg]. rewrite Ea. split; [reflexivity|]. split; [exact Va|exact Ga].
Qed.
Print Assumptions C50_index_operations_return_partial.
(* the same for elementwise functions of any number of operands; those with second derivatives must have no constant that adds an axis (finding 21) *)
Theorem C50_elementwise_functions_return_partial : forall (c2r : bool) (th : Z) (n : nat) (k : prim) (args : list (arg R)),
  0 < n -> (forall v, In v args -> goodv n v) -> (exists a, In (AL a) args) ->
  match k with PLin _ => True | PEw _ _ _ => no_new_axes (map fv args) | _ => False end ->
  applies k (map (@aval R) args) -> ne (sh (o_fwd (prim_op k) (map (@aval R) args))) ->
  (forall a, In (AL a) args -> weak (ljac a) = true) \/ (forall a, In (AL a) args -> weak (ljac a) = false) \/ length (als args) <= 2 ->
  exists a, eval_prim (prim_reg c2r) c2r k (prim_ops k) th args = Some [AL a] /\ lx a = o_fwd (prim_op k) (map (@aval R) args) /\ goodv n (AL a).
Proof.
  intros c2r th n k args Hn HG (a0 & Ha0) HK HA NE HM. rewrite unmixed_als in HM.
  assert (Hne : als args <> []) by (intros X; apply in_als_iff in Ha0; rewrite X in Ha0; destruct Ha0).
  destruct k; try contradiction; cbn [prim_op applies] in *.
  - destruct (@ew_linear_any R CRing_R n (lin_f l) (lin_1 l) (lin_2 l) LINEAR None c2r th args Hn Hne HG (proj2 HA) HM NE eq_refl) as (a & Ea & Ga & Va).
    exists a. unfold eval_prim. cbn [prim_reg]. rewrite Ea. split; [reflexivity|]. split; [exact Va|exact Ga].
  - destruct (@ew_general_any R CRing_R n phi d h c2r th args Hn Hne HG HA HM NE (@fv_axes args HK)) as (a & Ea & Ga & Va).
    exists a. unfold eval_prim. cbn [prim_reg]. rewrite Ea. split; [reflexivity|]. split; [exact Va|exact Ga].
Qed.
Print Assumptions C50_elementwise_functions_return_partial.

(* ---- the full C50 is false ---- *)
(* logaddexp(x, c) with x of shape (2,) and a constant c of shape (3, 2): threshold 0 returns, threshold 1 raises (finding 21) *)
Definition raC : nd R := lits [3; 2] [1; 2; 3; 4; 5; 6]%R.
Definition raA : @jaxpr R prim := Jaxpr [] [0] [] [pe (PBin BLogaddexp) [V 0; ALit raC] 1] [V 1].
Theorem C50_constant_with_more_axes_raises_refuted : smallj raA /\ smooth_noscan raA true exX /\ th_of 1%Q (map (@AX R) exX) = 1%Z /\
  issome (fwd false 0%Q raA (ones exX) (map (@AX R) exX)) = true /\ fwd false 1%Q raA (ones exX) (map (@AX R) exX) = None.
Proof.
  split; [unfold raA; small_prog|]. split; [|split; [vm_compute; reflexivity|split; vm_compute; reflexivity]].
  unfold smooth_noscan, raA, exX. cbn -[prim_op applies diff_at o_fwd]. repeat match goal with |- _ /\ _ => split end; try fits.
  - split; [reflexivity|vm_compute; discriminate].
  - intros p Hp. exact I.
Qed.
Print Assumptions C50_constant_with_more_axes_raises_refuted.
(* cumsum(concatenate([x, c])[2:]): the part that cumsum is applied to does not depend on x, but is marked as if it did (finding 17) *)
Definition raCat : iop := Iop [4] (fun p => if nth 0 p 0 <? 2 then (0, p) else (1, [nth 0 p 0 - 2])).
Definition raTail : iop := Iop [2] (fun p => (0, [nth 0 p 0 + 2])).
Definition raB : @jaxpr R prim := Jaxpr [] [0] [] [pe (PIndex raCat true true) [V 0; ALit (lits [2] [1; 2]%R)] 1; pe (PIndex raTail true false) [V 1] 2; pe (cumsum 0 false) [V 2] 3] [V 3].
Theorem C50_independent_part_raises_refuted : smallj raB /\ smooth_noscan raB true exX /\ th_of 1%Q (map (@AX R) exX) = 1%Z /\
  issome (fwd false 0%Q raB (ones exX) (map (@AX R) exX)) = true /\ fwd false 1%Q raB (ones exX) (map (@AX R) exX) = None.
Proof.
  split; [unfold raB; small_prog|]. split; [|split; [vm_compute; reflexivity|split; vm_compute; reflexivity]].
  unfold smooth_noscan, raB, exX, cumsum. cbn -[prim_op applies diff_at o_fwd]. 
  repeat match goal with |- _ /\ _ => split end; try fits.
  - intros p Hp. change (inb p [4]) in Hp. inversion Hp as [|a ? ? ? H1 H2]; subst. inversion H2; subst. destruct a as [|[|[|[|a]]]]; [..|lia]; (split; [vm_compute; lia|repeat constructor]).
  - intros p Hp. change (inb p [2]) in Hp. inversion Hp as [|a ? ? ? H1 H2]; subst. inversion H2; subst. destruct a as [|[|a]]; [..|lia]; (split; [vm_compute; lia|repeat constructor]).
  - apply C48_registered_functions_differentiable. apply (@rg_cumsum 0 false). cbn. lia.
  - apply C48_registered_functions_differentiable. apply (@rg_cumsum 0 false). cbn. lia.
Qed.
Print Assumptions C50_independent_part_raises_refuted.

(* einsum('i,j->ij', x[:2], x[1:]) for x of shape (3,): the operands share an input at exactly one place, and the second-order rule of dot_general raises (finding 25) *)
Definition raX : list (nd R) := [lits [3] [2; 3; 5]%R].
Definition raSl (k : nat) : iop := Iop [2] (fun p => (0, [nth 0 p 0 + k])).
Definition raD : @jaxpr R prim := Jaxpr [] [0] [] [pe (PIndex (raSl 0) true false) [V 0] 1; pe (PIndex (raSl 1) true false) [V 0] 2; pe (PDot (Dims [] [] [] [])) [V 1; V 2] 3] [V 3].
Theorem C50_one_meeting_point_raises_refuted : smallj raD /\ smooth_noscan raD true raX /\ th_of 9%Q (map (@AX R) raX) = 9%Z /\
  issome (fwd false 0%Q raD (ones raX) (map (@AX R) raX)) = true /\ fwd false 9%Q raD (ones raX) (map (@AX R) raX) = None.
Proof.
  split; [unfold raD; small_prog|]. split; [|split; [vm_compute; reflexivity|split; vm_compute; reflexivity]].
  unfold smooth_noscan, raD, raX. cbn -[prim_op applies diff_at o_fwd]. repeat match goal with |- _ /\ _ => split end; try fits.
  - intros p Hp. change (inb p [2]) in Hp. inversion Hp as [|a ? ? ? H1 H2]; subst. inversion H2; subst. destruct a as [|[|a]]; [..|lia]; (split; [vm_compute; lia|repeat constructor]).
  - intros p Hp. change (inb p [2]) in Hp. inversion Hp as [|a ? ? ? H1 H2]; subst. inversion H2; subst. destruct a as [|[|a]]; [..|lia]; (split; [vm_compute; lia|repeat constructor]).
  - eexists. eexists. split; [reflexivity|]. unfold dims_ok. cbn. repeat match goal with |- _ /\ _ => split | |- NoDup _ => constructor | |- _ = _ => reflexivity | |- forall d, _ => intros ? [] end.
Qed.
Print Assumptions C50_one_meeting_point_raises_refuted.

(* concatenate([x[:2], x[2:], cumsum(x)]) for x of shape (5,) at threshold 3: cumsum(x) has a dense Jacobian, so the operands are pushed through one at a time and their Jacobians are added; those of the two slices are sparse, with 2 and 3 rows, and cannot be added (findings 3 and 35) *)
Definition ocX : list (nd R) := [lits [5] [2; 3; 5; 7; 11]%R].
Definition ocSl (k m : nat) : iop := Iop [m] (fun p => (0, [nth 0 p 0 + k])).
Definition ocCat : iop := Iop [10] (fun p => let i := nth 0 p 0 in if i <? 2 then (0, [i]) else if i <? 5 then (1, [i - 2]) else (2, [i - 5])).
Definition ocD : @jaxpr R prim := Jaxpr [] [0] [] [pe (PIndex (ocSl 0 2) true false) [V 0] 1; pe (PIndex (ocSl 2 3) true false) [V 0] 2; pe (cumsum 0 false) [V 0] 3; pe (PIndex ocCat true false) [V 1; V 2; V 3] 4] [V 4].
Theorem C50_concatenation_of_three_raises_refuted : smallj ocD /\ smooth_noscan ocD true ocX /\ th_of 3%Q (map (@AX R) ocX) = 3%Z /\
  issome (fwd false 0%Q ocD (ones ocX) (map (@AX R) ocX)) = true /\ fwd false 3%Q ocD (ones ocX) (map (@AX R) ocX) = None.
Proof.
  split; [unfold ocD; small_prog|]. split; [|split; [vm_compute; reflexivity|split; vm_compute; reflexivity]].
  unfold smooth_noscan, ocD, ocX, cumsum. cbn -[prim_op applies diff_at o_fwd]. repeat match goal with |- _ /\ _ => split end; try fits.
  - intros p Hp. change (inb p [2]) in Hp. inversion Hp as [|a ? ? ? H1 H2]; subst. inversion H2; subst. destruct a as [|[|a]]; [..|lia]; (split; [vm_compute; lia|repeat constructor]).
  - intros p Hp. change (inb p [3]) in Hp. inversion Hp as [|a ? ? ? H1 H2]; subst. inversion H2; subst. destruct a as [|[|[|a]]]; [..|lia]; (split; [vm_compute; lia|repeat constructor]).
  - apply C48_registered_functions_differentiable. apply (@rg_cumsum 0 false). cbn. lia.
  - apply C48_registered_functions_differentiable. apply (@rg_cumsum 0 false). cbn. lia.
  - intros p Hp. change (inb p [10]) in Hp. inversion Hp as [|a ? ? ? H1 H2]; subst. inversion H2; subst. do 10 (destruct a as [|a]; [split; [vm_compute; lia|repeat constructor]|]). lia.
Qed.
Print Assumptions C50_concatenation_of_three_raises_refuted.

(* ---- a program that meets the hypotheses: f(x) = ((x[0:1] / x) * sum (logaddexp (x, c)), cumsum (sin x)) at x = (2, 3), with sparse Jacobians throughout at threshold 1 ---- *)
Definition saF : @jaxpr R prim := Jaxpr [] [0] []
  [pe (PIndex stSlice true false) [V 0] 1; pe PDiv [V 1; V 0] 2; pe (PBin BLogaddexp) [V 0; ALit (lits [] [7]%R)] 3; pe (PSum [0]) [V 3] 4; pe PMul [V 2; V 4] 5; pe (PUn USin) [V 0] 6; pe (cumsum 0 false) [V 6] 7] [V 2; V 3; V 5; V 7].
Ltac has_element := match goal with |- ne ?s => let t := eval vm_compute in s in change s with t; exists (map (fun _ => 0) t); repeat constructor end.
Lemma saF_safe : safe_run saF true (map (fun x => (x, true)) exX).
Proof.
  unfold saF, exX, cumsum. cbn -[prim_op applies diff_at o_fwd safe_prim]. repeat match goal with |- _ /\ _ => split | |- true = true -> _ => intros _ end; try fits.
  all: try (match goal with |- safe_prim _ _ => split; [let f := fresh in let Hf := fresh in intros f Hf; cbn [prim_ops In] in Hf; destruct Hf as [<-|[]]; has_element|] end).
  - intros p Hp. change (inb p [1]) in Hp. inversion Hp as [|a ? ? ? H1 H2]; subst. inversion H2; subst. split; [cbn; lia|]. cbn. constructor; [lia|constructor].
  - split; [cbn; lia|]. intros _ p _. reflexivity.
  - intros q Hq. change (inb q [2]) in Hq. inversion Hq as [|a b l m H1 H2]; subst. inversion H2; subst. destruct a as [|[|a]]; [| |lia]; vm_compute; lra.
  - intros _ s t H1 H2. vm_compute in H1, H2. congruence.
  - split; [reflexivity|vm_compute; discriminate].
  - intros p Hp. exact I.
  - split; [cbn; lia|]. intros s t H1 H2. vm_compute in H1, H2. injection H1 as <-. injection H2 as <-. reflexivity.
  - exact I.
  - exact I.
  - exact I.
  - apply C48_registered_functions_differentiable. apply (@rg_cumsum 0 false). cbn. lia.
  - apply C48_registered_functions_differentiable. apply (@rg_cumsum 0 false). cbn. lia.
  - reflexivity.
Qed.
Lemma saF_static : static_run saF true exX.
Proof.
  unfold static_run, saF, exX, cumsum. cbn -[prim_op applies diff_at o_fwd]. repeat match goal with |- _ /\ _ => split end; try fits; try (left; reflexivity); try (right; reflexivity).
  - intros p Hp. change (inb p [1]) in Hp. inversion Hp as [|a ? ? ? H1 H2]; subst. inversion H2; subst. split; [cbn; lia|]. cbn. constructor; [lia|constructor].
  - left. repeat constructor.
  - intros q Hq. change (inb q [2]) in Hq. inversion Hq as [|a b l m H1 H2]; subst. inversion H2; subst. destruct a as [|[|a]]; [| |lia]; vm_compute; lra.
  - split; [reflexivity|vm_compute; discriminate].
  - intros p Hp. exact I.
  - apply C48_registered_functions_differentiable. apply (@rg_cumsum 0 false). cbn. lia.
  - apply C48_registered_functions_differentiable. apply (@rg_cumsum 0 false). cbn. lia.
Qed.
Example C50_hypotheses_met : 0 < total (map (@sh R) exX) /\ wts_ok (ones exX) exX /\ smallj saF /\ (forall x, In x exX -> ne (sh x)) /\ safe_run saF true (map (fun x => (x, true)) exX) /\ static_run saF true exX /\
  issome (plain_run saF true exX) = true /\ th_of 1%Q (map (@AX R) exX) = 1%Z /\ sparse_of (fwd false 1%Q saF (ones exX) (map (@AX R) exX)) = Some [true; true; false; false].
Proof.
  split; [vm_compute; repeat constructor|]. split; [apply ones_ok|]. split; [unfold saF, cumsum; small_prog|]. split; [intros x [<-|[]]; has_element|]. split; [exact saF_safe|]. split; [exact saF_static|]. split; [vm_compute; reflexivity|]. split; vm_compute; reflexivity.
Qed.
(* concatenate of three inputs, all with sparse Jacobians *)
Definition ixX : list (nd R) := [lits [2] [2; 3]%R; lits [3] [5; 7; 11]%R; lits [5] [1; 2; 3; 4; 5]%R].
Example C50_index_hypotheses_met : let args := seeds true (ones ixX) ixX in 0 < total (map (@sh R) ixX) /\ (forall v, In v args -> goodv (total (map (@sh R) ixX)) v) /\ (exists a, In (AL a) args) /\
  applies (PIndex ocCat true false) (map (@aval R) args) /\ ne (i_shape ocCat) /\ (forall p, inb p (i_shape ocCat) -> is_al (nth (fst (i_src ocCat p)) args (AX nd0)) = true) /\
  (forall a, In (AL a) args -> weak (ljac a) = true) /\ length (als args) = 3.
Proof.
  intros args. split; [vm_compute; lia|]. split; [apply seeds_good; [apply ones_ok|intros x [<-|[<-|[<-|[]]]]; has_element]|]. split; [eexists; left; reflexivity|]. split; [|split; [has_element|split; [|split]]].
  - intros p Hp. change (inb p [10]) in Hp. inversion Hp as [|a ? ? ? H1 H2]; subst. inversion H2; subst. do 10 (destruct a as [|a]; [split; [vm_compute; lia|repeat constructor]|]). lia.
  - intros p Hp. change (inb p [10]) in Hp. inversion Hp as [|a ? ? ? H1 H2]; subst. inversion H2; subst. do 10 (destruct a as [|a]; [reflexivity|]). lia.
  - intros a [E|[E|[E|[]]]]; injection E as <-; reflexivity.
  - reflexivity.
Qed.
(* atan2-like functions of three inputs (2,), all with sparse Jacobians *)
Definition ewX : list (nd R) := [lits [2] [2; 3]%R; lits [2] [5; 7]%R; lits [2] [1; 2]%R].
Example C50_elementwise_hypotheses_met : forall phi d h, let args := seeds true (ones ewX) ewX in 0 < total (map (@sh R) ewX) /\ (forall v, In v args -> goodv (total (map (@sh R) ewX)) v) /\ (exists a, In (AL a) args) /\
  no_new_axes (map fv args) /\ applies (PEw phi d h) (map (@aval R) args) /\ ne (sh (o_fwd (prim_op (PEw phi d h)) (map (@aval R) args))) /\ (forall a, In (AL a) args -> weak (ljac a) = true) /\ length (als args) = 3.
Proof.
  intros phi d h args. split; [vm_compute; lia|]. split; [apply seeds_good; [apply ones_ok|intros x [<-|[<-|[<-|[]]]]; has_element]|]. split; [eexists; left; reflexivity|].
  split; [intros s t H1 H2; vm_compute in H1, H2; injection H1 as <-; injection H2 as <-; reflexivity|]. split; [vm_compute; discriminate|]. split; [exists [0]; vm_compute; repeat constructor|]. split; [|reflexivity].
  intros a [E|[E|[E|[]]]]; injection E as <-; reflexivity.
Qed.
