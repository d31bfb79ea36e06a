(* Props_DotGen.v : property C24 (dot_general). *)
From Verif Require Import DotFacts Check.
Set Implicit Arguments.
Open Scope cr_scope.

(* C24.  Whenever dot_general returns, the result has the shape (batch, free axes of the left operand, free axes of the right operand) and the
   values sum_c lhs[..] * rhs[..] of lax.dot_general, and its Jacobian and Laplacian are those of that sum (Leibniz' rule).  For every rank, every
   dimension numbers, dense or sparse or plain operands (at least one carries derivatives).
   The full statement has no hypothesis on the fast path; it is false (C24_wrong_shape_refuted, C24_wrong_values_refuted).  What is missing: two
   sparse operands for which dot_general multiplies the operands without rearranging them (fast_taken) although the axes are not in
   the order that makes this right (fast_right). *)
Theorem C24_dot_general_partial : forall (A : Type) (RA : CRing A) (n : nat) (complex_to_real : bool) (threshold : Z) (D : dims) (u v : arg A) (r : arg A),
  (0 < n)%nat -> (exists a, In (AL a) [u; v]) -> vok n u -> vok n v ->
  let x := aval u in let y := aval v in dims_ok D (sh x) (sh y) ->
  (sparse_arg u = true -> sparse_arg v = true -> fast_taken D (sh x) (sh y) = true -> fast_right D (sh x) (sh y)) ->
  dot_general complex_to_real threshold D u v = Some r ->
  let so := permute (lb D) (sh x) ++ permute (lf D (sh x)) (sh x) ++ permute (rf D (sh y)) (sh y) in
  let C := allix (permute (lc D) (sh x)) in
  let at_l p c := lix D (sh x) p c in let at_r p c := rix D (sh x) (sh y) p c in
  exists a, r = AL a /\ awf n a /\ jrow1 (ljac a) /\ sh (lx a) = so /\
  (forall p, inb p so -> at_ (lx a) p = sumL C (fun c => at_ x (at_l p c) * at_ y (at_r p c))) /\
  (forall i p, inb p so -> jent (ljac a) i p = sumL C (fun c => at_ y (at_r p c) * vjac u i (at_l p c) + at_ x (at_l p c) * vjac v i (at_r p c))) /\
  (forall p, inb p so -> at_ (llap a) p = sumL C (fun c => at_ y (at_r p c) * vlap u (at_l p c) + at_ x (at_l p c) * vlap v (at_r p c)
      + (1 + 1) * sumn n (fun i => vjac u i (at_l p c) * vjac v i (at_r p c)))).
Proof.
  intros A RA n c2r th D u v r Hn (a0 & Ha0) Hu Hv x y HD HF H so C at_l at_r.
  assert (Hne : als [u; v] <> []) by (intros E; apply In_als in Ha0; rewrite E in Ha0; destruct Ha0).
  destruct (@dot_general_sound A RA n c2r th D u v r Hn Hne Hu Hv HD) as (a & -> & (B1 & B2 & B3 & B4 & B5 & B6 & B7)).
  - intros EW. apply andb_true_iff in EW. apply HF; apply EW.
  - exact H.
  - exists a. split; [reflexivity|]. split; [exact B2|]. split; [exact B3|]. split; [exact B1|]. split; [|split].
    + intros p Hp. etransitivity; [apply B5; exact Hp|]. rewrite sumL_map. reflexivity.
    + intros i p Hp. etransitivity; [apply B6; exact Hp|]. rewrite sumL_map. reflexivity.
    + intros p Hp. etransitivity; [apply B7; exact Hp|]. rewrite sumL_map. reflexivity.
Qed.
Print Assumptions C24_dot_general_partial.
(* with a dense (or plain) operand there is no further condition: the fast path is never taken *)
Theorem C24_dense_exact : forall (A : Type) (RA : CRing A) (n : nat) (complex_to_real : bool) (threshold : Z) (D : dims) (u v : arg A) (r : arg A),
  (0 < n)%nat -> (exists a, In (AL a) [u; v]) -> vok n u -> vok n v ->
  let x := aval u in let y := aval v in dims_ok D (sh x) (sh y) ->
  (forall a b, u = AL a -> v = AL b -> weak (ljac a) = false \/ weak (ljac b) = false) ->
  dot_general complex_to_real threshold D u v = Some r ->
  exists a, r = AL a /\ eqa (lx a) (o_fwd (op_dot D) [x; y]) /\ awf n a /\
  (forall i p, inb p (dot_shape D (sh x) (sh y)) -> jent (ljac a) i p = dspec (op_dot D) [lift u; lift v] i p) /\
  (forall p, inb p (dot_shape D (sh x) (sh y)) -> at_ (llap a) p = lspec (op_dot D) [lift u; lift v] p + hspec n (op_dot D) [lift u; lift v] p).
Proof.
  intros A RA n c2r th D u v r Hn (a0 & Ha0) Hu Hv x y HD HF H.
  assert (Hne : als [u; v] <> []) by (intros E; apply In_als in Ha0; rewrite E in Ha0; destruct Ha0).
  destruct (@dot_general_sound A RA n c2r th D u v r Hn Hne Hu Hv HD) as (a & -> & B).
  - intros EW. exfalso. apply andb_true_iff in EW. destruct EW as [E1 E2]. destruct u as [a|], v as [b|]; try discriminate. destruct (HF a b eq_refl eq_refl) as [E|E]; cbn in E1, E2; congruence.
  - exact H.
  - destruct (@bilin_dot A RA n u v D a HD B) as (G1 & G2 & G3 & G4 & G5). exists a. auto.
Qed.
Print Assumptions C24_dense_exact.

(* ---- witnesses ---- *)
Definition gota (o : option (arg Z)) : arg Z := match o with Some r => r | None => AX nd0 end.
Lemma gota_ok o : match o with Some _ => true | None => false end = true -> o = Some (gota o).
Proof. destruct o; cbn; congruence. Qed.
Definition showv (o : option (arg Z)) : shape * list Z * list Z := match o with Some (AL a) => (sh (lx a), flat (lx a), flat (llap a)) | Some (AX x) => (sh x, flat x, []) | None => ([], [], []) end.
(* a seed: the elements of a vector of inputs, starting at input number off *)
Definition seed (s : shape) (off : nat) (x : list Z) : lapl Z := sp s x 1 (map Z.of_nat (seq off (prod s))) (repeat 1%Z (prod s)) (repeat 0%Z (prod s)).
Lemma vok_seed n a : awfb n a = true -> (1 <=? rows (jdata (ljac a)))%nat = true -> vok n (AL a).
Proof. intros H1 H2. split; [apply awfb_ok; auto|apply jrow1b_ok; auto]. Qed.
Ltac dimsok := repeat split; cbn; try reflexivity; try (repeat constructor; cbn; intuition lia); intros d Hd; intuition lia.

(* jnp.inner(v, M): v of shape (2), M of shape (3, 2); the result has shape (2) instead of (3) *)
Definition Dinner := Dims [0%nat] [1%nat] [] [].
Definition vec2 := AL (seed [2]%nat 0 [1; 2]%Z).
Definition mat32 := AL (seed [3; 2]%nat 2 [1; 2; 3; 4; 5; 6]%Z).
(* M of shape (1, 3) against N of shape (2, 3), both contracted over the last axis: shape (2) instead of (1, 2) *)
Definition Dlast := Dims [1%nat] [1%nat] [] [].
Definition mat13 := AL (seed [1; 3]%nat 0 [1; 2; 3]%Z).
Definition mat23 := AL (seed [2; 3]%nat 3 [1; 2; 3; 4; 5; 6]%Z).
Theorem C24_wrong_shape_refuted : ~ (forall (n : nat) (c2r : bool) (th : Z) (D : dims) (u v r : arg Z), (0 < n)%nat -> (exists a, In (AL a) [u; v]) -> vok n u -> vok n v ->
    dims_ok D (sh (aval u)) (sh (aval v)) -> dot_general c2r th D u v = Some r -> sh (aval r) = dot_shape D (sh (aval u)) (sh (aval v))) /\
  showv (dot_general false 8 Dinner vec2 mat32) = ([2]%nat, [9; 24]%Z, [0; 0]%Z) /\ dot_shape Dinner [2]%nat [3; 2]%nat = [3]%nat /\
  showv (dot_general false 9 Dlast mat13 mat23) = ([2]%nat, [14; 32]%Z, [0; 0]%Z) /\ dot_shape Dlast [1; 3]%nat [2; 3]%nat = [1; 2]%nat.
Proof.
  split; [|split; [vmr|split; [vmr|split; vmr]]]. intros H.
  specialize (H 8%nat false 8%Z Dinner vec2 mat32 (gota (dot_general false 8 Dinner vec2 mat32)) ltac:(lia) (ex_intro _ _ (or_introl eq_refl)) ltac:(apply vok_seed; vmr) ltac:(apply vok_seed; vmr) ltac:(dimsok) ltac:(apply gota_ok; vmr)).
  vm_compute in H. discriminate H.
Qed.
Print Assumptions C24_wrong_shape_refuted.
(* einsum('fbc,bc->bf') as dot_general with batch axis 1 of the left operand, shapes (2, 2, 1) and (2, 1): the result is transposed *)
Definition Dbatch := Dims [2%nat] [1%nat] [1%nat] [0%nat].
Definition cube := AL (seed [2; 2; 1]%nat 0 [1; 2; 3; 4]%Z).
Definition mat21 := AL (seed [2; 1]%nat 4 [10; 100]%Z).
Theorem C24_wrong_values_refuted : ~ (forall (n : nat) (c2r : bool) (th : Z) (D : dims) (u v r : arg Z), (0 < n)%nat -> (exists a, In (AL a) [u; v]) -> vok n u -> vok n v ->
    dims_ok D (sh (aval u)) (sh (aval v)) -> dot_general c2r th D u v = Some r -> sh (aval r) = dot_shape D (sh (aval u)) (sh (aval v)) ->
    forall p, inb p (sh (aval r)) -> at_ (aval r) p = at_ (o_fwd (op_dot D) [aval u; aval v]) p) /\
  showv (dot_general false 6 Dbatch cube mat21) = ([2; 2]%nat, [10; 200; 30; 400]%Z, [0; 0; 0; 0]%Z) /\
  flat (o_fwd (op_dot Dbatch) [aval cube; aval mat21]) = [10; 30; 200; 400]%Z.
Proof.
  split; [|split; vmr]. intros H.
  specialize (H 6%nat false 6%Z Dbatch cube mat21 (gota (dot_general false 6 Dbatch cube mat21)) ltac:(lia) (ex_intro _ _ (or_introl eq_refl)) ltac:(apply vok_seed; vmr) ltac:(apply vok_seed; vmr) ltac:(dimsok) ltac:(apply gota_ok; vmr) ltac:(vmr) [0; 1]%nat).
  assert (HI : inb [0; 1]%nat (sh (aval (gota (dot_general false 6 Dbatch cube mat21))))) by (apply inb_dec; vmr). specialize (H HI). vm_compute in H. discriminate H.
Qed.
Print Assumptions C24_wrong_values_refuted.

(* The hypotheses are met: a matrix product (3,2) @ (2,3) of two sparse operands, a batched product with the batch axis in the middle, a contraction over two
   axes in different orders, a sparse against a plain operand, and a fast path that is right (a matrix times a vector).  The Laplacian of
   M @ M is not zero. *)
Definition Dmm := Dims [1%nat] [0%nat] [] [].
Definition mat22 := AL (seed [2; 2]%nat 0 [1; 2; 3; 4]%Z).
Definition D2 := Dims [0; 1]%nat [1; 0]%nat [] [].
Definition Dmid := Dims [2%nat] [0%nat] [1%nat] [1%nat].
Definition Dmv := Dims [1%nat] [0%nat] [] [].
Example C24_hypotheses_met :
  (vok 8 vec2 /\ vok 8 mat32 /\ vok 4 mat22 /\ dims_ok Dmm [2; 2]%nat [2; 2]%nat /\ dims_ok D2 [2; 2]%nat [2; 2]%nat /\ dims_ok Dmid [2; 2; 1]%nat [1; 2; 3]%nat) /\
  (fast_taken Dmm [2; 2]%nat [2; 2]%nat = false /\ fast_taken Dmv [3; 2]%nat [2]%nat = true /\ fast_right Dmv [3; 2]%nat [2]%nat) /\
  showv (dot_general false 4 Dmm mat22 mat22) = ([2; 2]%nat, [7; 10; 15; 22]%Z, [2; 0; 0; 2]%Z) /\
  showv (dot_general false 4 D2 mat22 mat22) = ([]%nat, [29]%Z, [4]%Z) /\
  showv (dot_general false 4 D2 mat22 (AX (arr [2; 2]%nat [1; 10; 100; 1000]%Z))) = ([]%nat, [4231]%Z, [0]%Z) /\
  showv (dot_general false 8 Dmv mat32 vec2) = ([3]%nat, [5; 11; 17]%Z, [0; 0; 0]%Z) /\
  showv (dot_general false 4 Dmid cube (AL (seed [1; 2; 3]%nat 0 [1; 2; 3; 4; 5; 6]%Z))) = ([2; 2; 3]%nat, [1; 2; 3; 3; 6; 9; 8; 10; 12; 16; 20; 24]%Z, [2; 0; 0; 0; 0; 2; 0; 0; 0; 2; 0; 0]%Z).
Proof.
  split; [split; [apply vok_seed; vmr|split; [apply vok_seed; vmr|split; [apply vok_seed; vmr|split; [dimsok|split; dimsok]]]]|].
  split; [split; [vmr|split; [vmr|left; split; [vmr|left; vmr]]]|]. split; [vmr|split; [vmr|split; [vmr|split; [vmr|]]]]. vmr.
Qed.
