(* Props_Api.v : property theorems about FwdJacobian (C05, C06, C07, C08, C40).
   [jent J i p] (Spec.v) is the Jacobian entry d out[p] / d input_i that J stands for. *)
From Verif Require Import CompactFacts.
Set Implicit Arguments.
Local Open Scope cr_scope.

(* ---- C05 ---- *)
Theorem C05_dense_array_exact : forall (A : Type) (RA : CRing A) (J : jac A) (n : nat) (s : shape),
  jwf0 n s J -> nonempty J -> (0 < n)%nat ->
  exists D K, dense_array J = Some D /\ sh D = K :: s /\ (K <= n)%nat /\
    (forall i p, (i < K)%nat -> inb p s -> at_ D (i :: p) = jent J i p) /\
    (forall i p, (K <= i)%nat -> inb p s -> jent J i p = 0).
Proof. exact @dense_array_spec0. Qed.
Print Assumptions C05_dense_array_exact.
Theorem C05_every_index_has_a_row : forall (A : Type) (RA : CRing A) (J : jac A) (m : nd Z) (n : nat) (s : shape) (D : nd A),
  jwf0 n s J -> jidx J = Some m -> dense_array J = Some D ->
  forall r p, (r < rows (jdata J))%nat -> inb p s -> (at_ m (r :: p) < Z.of_nat (rows D))%Z.
Proof. exact @dense_array_covers. Qed.
Print Assumptions C05_every_index_has_a_row.
Theorem C05_as_dense_exact : forall (A : Type) (RA : CRing A) (J : jac A) (n : nat) (s : shape),
  jwf0 n s J -> nonempty J -> (0 < n)%nat ->
  exists J', as_dense J = Some J' /\ weak J' = false /\ jwf n s J' /\
    forall i p, inb p s -> jent J' i p = jent J i p.
Proof. exact @as_dense_spec0. Qed.
Print Assumptions C05_as_dense_exact.

(* a 2-output Jacobian with repeated and missing indices: output 0 stores (5, x2), (7, x2); output 1 stores (3, x0), (9, -) *)
Definition exJ : jac Z := Jac (arr [2; 2]%nat [5; 3; 7; 9]%Z) (Some (arr [2; 2]%nat [2; 0; 2; -1]%Z)).
Ltac two_cases := repeat match goal with
  | H : inb (_ :: _) (_ :: _) |- _ => apply inb_cons in H; destruct H
  | H : inb _ [] |- _ => inversion H; clear H; subst
  | H : inb ?p (_ :: _) |- _ => destruct p; [inversion H; fail|]
  end.
Example C05_hypotheses_met : jwf0 4 [2%nat] exJ /\ nonempty exJ /\
  option_map flat (dense_array exJ) = Some [0; 3; 0; 0; 12; 0]%Z.
Proof.
  split; [|split; [exists [0; 0]%nat; repeat constructor|reflexivity]].
  exists 2%nat. split; [reflexivity|]. split; [reflexivity|]. intros r p Hr Hp. two_cases.
  destruct r as [|[|r]]; [| |lia]; destruct n as [|[|n]]; try lia; cbn; lia.
Qed.

(* ---- C06 ---- *)
Theorem C06_construct_sparse_exact : forall (A : Type) (RA : CRing A) (J : jac A) (n : nat) (s : shape) (o : nd Z) (K : nat) (t : shape),
  jwf n s J -> weak J = true -> sh o = K :: t -> bto t s -> (0 < K)%nat ->
  exists res, construct_jac_for J (Some o) = Some res /\ sh res = K :: s /\
    (forall q p i, (q < K)%nat -> inb p s -> at_ o (q :: bproj t p) = Z.of_nat i ->
       (forall q', (q' < K)%nat -> q' <> q -> at_ o (q' :: bproj t p) <> Z.of_nat i) ->
       at_ res (q :: p) = jent J i p) /\
    (forall q p, (q < K)%nat -> inb p s -> (at_ o (q :: bproj t p) < 0)%Z -> at_ res (q :: p) = 0).
Proof. exact @construct_exact. Qed.
Print Assumptions C06_construct_sparse_exact.
Theorem C06_construct_dense_partial : forall (A : Type) (RA : CRing A) (J : jac A) (n : nat) (s : shape) (o : nd Z) (K : nat),
  jwf n s J -> weak J = false -> sh o = [K] -> (0 < K)%nat ->
  exists res, construct_jac_for J (Some o) = Some res /\ sh res = K :: s /\
    (forall q p i, (q < K)%nat -> inb p s -> at_ o [q] = Z.of_nat i -> (i < rows (jdata J))%nat -> at_ res (q :: p) = jent J i p).
Proof. exact @construct_dense_exact. Qed.
Print Assumptions C06_construct_dense_partial.
(* missing above: requests outside the stored rows.  They return the last row instead of zero. *)
Theorem C06_construct_dense_refuted : exists (J : jac Z) (o : nd Z) (res : nd Z),
  jwf 2 [] J /\ weak J = false /\ sh o = [1%nat] /\ construct_jac_for J (Some o) = Some res /\
  (at_ o [0%nat] = -1)%Z /\ at_ res [0%nat] <> 0%Z.
Proof.
  exists (Jac (Nd [2%nat] (fun i => Z.of_nat (hd 0 i + 7)%nat)) None), (Nd [1%nat] (fun _ => (-1)%Z)). eexists.
  split; [exists 2%nat; cbn; auto|]. split; [reflexivity|]. split; [reflexivity|]. split; [reflexivity|].
  split; [reflexivity|]. cbv. discriminate.
Qed.
Print Assumptions C06_construct_dense_refuted.
Example C06_hypotheses_met : let J := Jac (Nd [1%nat; 2%nat] (fun i => Z.of_nat (nth 1 i 0 + 4)%nat)) (Some (Nd [1%nat; 2%nat] (fun i => Z.of_nat (nth 1 i 0%nat)))) in
  let o := arr [3; 1]%nat [1; -1; 0]%Z in
  jwf 2 [2%nat] J /\ weak J = true /\ bto [1%nat] [2%nat] /\
  option_map flat (construct_jac_for J (Some o)) = Some [0; 5; 0; 0; 4; 0]%Z.
Proof.
  split; [|split; [reflexivity|split; [|reflexivity]]].
  - exists 1%nat. split; [reflexivity|]. split; [reflexivity|]. intros r p Hr Hp. two_cases. cbn. split; lia.
  - exists [], [2%nat]. split; auto.
Qed.

(* ---- C07 ---- *)
Theorem C07_add_dense_exact : forall (A : Type) (RA : CRing A) (J K : jac A) (n : nat) (s : shape),
  jwf n s J -> jwf n s K -> nonempty J -> nonempty K -> (0 < n)%nat -> weak J && weak K = false ->
  exists R, jadd J K = Some R /\ weak R = false /\ jwf n s R /\
    forall i p, inb p s -> jent R i p = jent J i p + jent K i p.
Proof. exact @jadd_dense. Qed.
Print Assumptions C07_add_dense_exact.
Theorem C07_add_sparse_same_rows_exact : forall (A : Type) (RA : CRing A) (J K : jac A) (n : nat) (s : shape),
  jwf n s J -> jwf n s K -> weak J = true -> weak K = true -> rows (jdata J) = rows (jdata K) ->
  exists R, jadd J K = Some R /\ weak R = true /\ jwf n s R /\
    forall i p, inb p s -> jent R i p = jent J i p + jent K i p.
Proof. exact @jadd_sparse. Qed.
Print Assumptions C07_add_sparse_same_rows_exact.
(* missing for the full claim: see the two refutations below *)
Theorem C07_add_sparse_partial : forall (A : Type) (RA : CRing A) (J K : jac A) (mj mk : nd Z) (n : nat) (s : shape) (R : jac A),
  jwf n s J -> jwf n s K -> jidx J = Some mj -> jidx K = Some mk -> jadd J K = Some R ->
  (rows (jdata J) = rows (jdata K) \/ ~ same_idx (rows (jdata J)) (rows (jdata K)) s mj mk) ->
  weak R = true /\ jwf n s R /\ forall i p, inb p s -> jent R i p = jent J i p + jent K i p.
Proof. exact @jadd_sparse_sound. Qed.
Print Assumptions C07_add_sparse_partial.
(* one row [x5], added to two rows [x5; x5]: the single row is counted twice *)
Theorem C07_add_double_counts_refuted : exists J K R : jac Z,
  jwf 6 [] J /\ jwf 6 [] K /\ jadd J K = Some R /\ jent R 5 [] <> jent J 5 [] + jent K 5 [].
Proof.
  exists (Jac (Nd [1%nat] (fun _ => 1%Z)) (Some (Nd [1%nat] (fun _ => 5%Z)))),
         (Jac (Nd [2%nat] (fun _ => 1%Z)) (Some (Nd [2%nat] (fun _ => 5%Z)))).
  eexists. split; [|split; [|split; [reflexivity|cbv; discriminate]]].
  - exists 1%nat. split; [reflexivity|]. split; [reflexivity|]. intros; cbn; lia.
  - exists 2%nat. split; [reflexivity|]. split; [reflexivity|]. intros; cbn; lia.
Qed.
Print Assumptions C07_add_double_counts_refuted.
Theorem C07_add_raises_when_rows_differ : forall (A : Type) (RA : CRing A) (J K : jac A) (mj mk : nd Z) (n : nat) (s : shape),
  jwf n s J -> jwf n s K -> jidx J = Some mj -> jidx K = Some mk ->
  rows (jdata J) <> rows (jdata K) -> rows (jdata J) <> 1%nat -> rows (jdata K) <> 1%nat -> jadd J K = None.
Proof. exact @jadd_sparse_raises. Qed.
Print Assumptions C07_add_raises_when_rows_differ.
Example C07_hypotheses_met : jwf 6 [] (Jac (Nd [2%nat] (fun _ => 1%Z)) (Some (Nd [2%nat] (fun _ => 5%Z)))) /\
  jwf 6 [] (Jac (Nd [2%nat] (fun _ => 3%Z)) (Some (Nd [2%nat] (fun i => Z.of_nat (hd 0%nat i))))).
Proof.
  split.
  - exists 2%nat. split; [reflexivity|]. split; [reflexivity|]. intros; cbn; lia.
  - exists 2%nat. split; [reflexivity|]. split; [reflexivity|]. intros; cbn; lia.
Qed.

(* ---- C40 ---- *)
Theorem C40_compaction_lossless : forall (a b : nd Z) (c : list nat), compact a = (b, c) ->
  length (sh b) = length (sh a) /\
  (forall d, In d c -> (1 <= d < ndim a)%nat /\ nth d (sh b) 0%nat = 1%nat) /\
  (forall d, ~ In d c -> nth d (sh b) 0%nat = nth d (sh a) 0%nat) /\
  (forall i, inb i (sh a) -> at_ (broadcast_to (sh a) b) i = at_ a i).
Proof. exact compact_broadcast. Qed.
Print Assumptions C40_compaction_lossless.
(* shape (1,3,2) tensor constant along axis 1 only *)
Example C40_case : let (b, c) := compact (Nd [1%nat; 3%nat; 2%nat] (fun i => Z.of_nat (nth 2 i 0%nat))) in
  c = [1%nat] /\ sh b = [1%nat; 1%nat; 2%nat] /\ flat b = [0; 1]%Z.
Proof. vm_compute. auto. Qed.
