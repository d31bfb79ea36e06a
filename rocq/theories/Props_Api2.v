(* Props_Api2.v : complete descriptions of __add__ (C07), construct_jac_for (C06) and the rows of dense_array (C08).
   [jent J i p] (Spec.v) is the Jacobian entry d out[p] / d input_i that J stands for. *)
From Verif Require Import ApiExact.
Set Implicit Arguments.
Local Open Scope cr_scope.

(* ---- C07: with C07_add_dense_exact, C07_add_sparse_same_rows_exact and C07_add_raises_when_rows_differ these three say what __add__ does on every pair of Jacobians:
   a single stored row whose indices equal all the indices of the k rows of the other operand is broadcast, that is, counted k times; in the remaining case rows are concatenated. ---- *)
Theorem C07_single_row_left_counted_k_times : forall (A : Type) (RA : CRing A) (J K : jac A) (mj mk : nd Z) (n : nat) (s : shape) (k : nat),
  jwf n s J -> jwf n s K -> jidx J = Some mj -> jidx K = Some mk -> rows (jdata J) = 1%nat -> rows (jdata K) = k -> same_idx 1 k s mj mk ->
  exists R, jadd J K = Some R /\ weak R = true /\ jwf n s R /\ rows (jdata R) = k /\
    forall i p, inb p s -> jent R i p = sumn k (fun _ => jent J i p) + jent K i p.
Proof. exact @jadd_one_l. Qed.
Print Assumptions C07_single_row_left_counted_k_times.
Theorem C07_single_row_right_counted_k_times : forall (A : Type) (RA : CRing A) (J K : jac A) (mj mk : nd Z) (n : nat) (s : shape) (k : nat),
  jwf n s J -> jwf n s K -> jidx J = Some mj -> jidx K = Some mk -> rows (jdata J) = k -> rows (jdata K) = 1%nat -> same_idx k 1 s mj mk ->
  exists R, jadd J K = Some R /\ weak R = true /\ jwf n s R /\ rows (jdata R) = k /\
    forall i p, inb p s -> jent R i p = jent J i p + sumn k (fun _ => jent K i p).
Proof. exact @jadd_one_r. Qed.
Print Assumptions C07_single_row_right_counted_k_times.
Theorem C07_single_row_other_indices_exact : forall (A : Type) (RA : CRing A) (J K : jac A) (mj mk : nd Z) (n : nat) (s : shape),
  jwf n s J -> jwf n s K -> jidx J = Some mj -> jidx K = Some mk ->
  rows (jdata J) = 1%nat \/ rows (jdata K) = 1%nat -> ~ same_idx (rows (jdata J)) (rows (jdata K)) s mj mk ->
  exists R, jadd J K = Some R /\ weak R = true /\ jwf n s R /\ rows (jdata R) = (rows (jdata J) + rows (jdata K))%nat /\
    forall i p, inb p s -> jent R i p = jent J i p + jent K i p.
Proof. exact @jadd_concat. Qed.
Print Assumptions C07_single_row_other_indices_exact.
(* rows (x5: 1) and (x5: 1), (x5: 2), (x5: 4): 3 * 1 + 7 *)
Example C07_single_row_case : let J := Jac (arr [1%nat] [1%Z]) (Some (arr [1%nat] [5%Z])) in let K := Jac (arr [3%nat] [1; 2; 4]%Z) (Some (arr [3%nat] [5; 5; 5]%Z)) in
  jwf 6 [] J /\ jwf 6 [] K /\ same_idx 1 3 [] (arr [1%nat] [5%Z]) (arr [3%nat] [5; 5; 5]%Z) /\
  option_map (fun R => jent R 5 []) (jadd J K) = Some 10%Z /\ option_map (fun R => jent R 5 []) (jadd K J) = Some 10%Z.
Proof.
  cbv zeta. split; [|split; [|split; [|split; reflexivity]]].
  - exists 1%nat. split; [reflexivity|]. split; [reflexivity|]. intros r p Hr Hp. inversion Hp; subst. destruct r; [|lia]. vm_compute. split; [split; [discriminate|reflexivity]|discriminate].
  - exists 3%nat. split; [reflexivity|]. split; [reflexivity|]. intros r p Hr Hp. inversion Hp; subst. destruct r as [|[|[|r]]]; [| | |lia]; vm_compute; (split; [split; [discriminate|reflexivity]|discriminate]).
  - intros r t p Hr Ht Hp. inversion Hp; subst. destruct r; [|lia]. destruct t as [|[|[|t]]]; [reflexivity|reflexivity|reflexivity|lia].
Qed.

(* ---- C06: what construct_jac_for returns for every request ---- *)
(* sparse Jacobians: the first request of an input gets its row; a repeated request and a negative one get zeros *)
Theorem C06_construct_sparse_value : forall (A : Type) (RA : CRing A) (J : jac A) (n : nat) (s : shape) (o : nd Z) (K : nat) (t : shape),
  jwf n s J -> weak J = true -> sh o = K :: t -> bto t s -> (0 < K)%nat ->
  exists res, construct_jac_for J (Some o) = Some res /\ sh res = K :: s /\
    forall q p, (q < K)%nat -> inb p s -> let z q := at_ o (q :: bproj t p) in
      ((0 <= z q)%Z -> (forall r, (r < q)%nat -> z r <> z q) -> at_ res (q :: p) = jent J (Z.to_nat (z q)) p) /\
      ((z q < 0)%Z \/ (exists r, (r < q)%nat /\ z r = z q) -> at_ res (q :: p) = 0).
Proof. exact @construct_sparse_value. Qed.
Print Assumptions C06_construct_sparse_value.
(* dense Jacobians: array indexing, so requests past the end get the last row and negative ones count from the end, never zeros *)
Theorem C06_construct_dense_value : forall (A : Type) (RA : CRing A) (J : jac A) (n : nat) (s : shape) (o : nd Z) (K : nat),
  jwf n s J -> weak J = false -> sh o = [K] -> (0 < K)%nat -> (0 < rows (jdata J))%nat ->
  exists res, construct_jac_for J (Some o) = Some res /\ sh res = K :: s /\ let k := Z.of_nat (rows (jdata J)) in
    forall q p, (q < K)%nat -> inb p s -> let z := at_ o [q] in
      ((0 <= z)%Z -> at_ res (q :: p) = jent J (Z.to_nat (Z.min z (k - 1))) p) /\ ((z < 0)%Z -> at_ res (q :: p) = jent J (Z.to_nat (Z.max 0 (k + z))) p).
Proof. exact @construct_dense_value. Qed.
Print Assumptions C06_construct_dense_value.
Example C06_value_cases :
  option_map flat (construct_jac_for (Jac (arr [3%nat] [7; 8; 9]%Z) None) (Some (arr [5%nat] [1; -1; 5; -2; -9]%Z))) = Some [8; 9; 9; 8; 7]%Z /\
  option_map flat (construct_jac_for (Jac (arr [3%nat] [7; 8; 9]%Z) (Some (arr [3%nat] [0; 4; 0]%Z))) (Some (arr [5%nat] [4; 0; 4; 2; -1]%Z))) = Some [8; 16; 0; 0; 0]%Z.
Proof. split; reflexivity. Qed.

(* ---- C08: the number of rows of dense_array of a sparse Jacobian is one more than the largest stored index (and at least 1) ---- *)
Theorem C08_rows_of_sparse_jacobian : forall (A : Type) (RA : CRing A) (J : jac A) (m : nd Z) (n : nat) (s : shape) (D : nd A),
  jwf0 n s J -> jidx J = Some m -> (exists i, inb i (sh m)) -> dense_array J = Some D ->
  exists mx i, inb i (sh m) /\ at_ m i = mx /\ (forall j, inb j (sh m) -> (at_ m j <= mx)%Z) /\ sh D = Z.to_nat (Z.max 1 (mx + 1)) :: s.
Proof. exact @dense_array_rows. Qed.
Print Assumptions C08_rows_of_sparse_jacobian.
Example C08_rows_cases : option_map (@sh Z) (dense_array (Jac (arr [2%nat] [7; 8]%Z) (Some (arr [2%nat] [4; 1]%Z)))) = Some [5%nat] /\
  option_map (@sh Z) (dense_array (Jac (arr [2%nat] [7; 8]%Z) (Some (arr [2%nat] [-1; -1]%Z)))) = Some [1%nat].
Proof. split; reflexivity. Qed.
