(* Props_Exact.v : C54 and C55, complete descriptions of FwdJacobian.__add__ and FwdJacobian.construct_jac_for, each in one statement.
   [jent J i p] (Spec.v) is the Jacobian entry d out[p] / d input_i that J stands for. *)
From Coq Require Import Classical_Prop.
From Verif Require Import ApiExact Props_Api Props_Api2.
Set Implicit Arguments.
Local Open Scope cr_scope.

(* ---- C54 ---- *)
Theorem C54_addition_of_every_pair : forall (A : Type) (RA : CRing A) (J K : jac A) (n : nat) (s : shape),
  jwf n s J -> jwf n s K -> nonempty J -> nonempty K -> (0 < n)%nat ->
  let k := rows (jdata J) in let l := rows (jdata K) in
  match jidx J, jidx K with
  | Some mj, Some mk => (* two sparse Jacobians: different numbers of rows, none of them 1, raise *)
      (jadd J K = None <-> k <> l /\ k <> 1%nat /\ l <> 1%nat) /\
      forall r, jadd J K = Some r -> weak r = true /\ jwf n s r /\ forall i p, inb p s ->
        (* a single row that stores the same inputs as all l (k) rows of the other operand is counted l (k) times; everything else is exact *)
        (k = 1%nat -> same_idx 1 l s mj mk -> jent r i p = sumn l (fun _ => jent J i p) + jent K i p) /\
        (l = 1%nat -> same_idx k 1 s mj mk -> jent r i p = jent J i p + sumn k (fun _ => jent K i p)) /\
        ((k = l \/ ~ same_idx k l s mj mk) -> jent r i p = jent J i p + jent K i p)
  | _, _ => (* a dense operand: the result is dense and exact *)
      exists r, jadd J K = Some r /\ weak r = false /\ jwf n s r /\ forall i p, inb p s -> jent r i p = jent J i p + jent K i p
  end.
Proof.
  intros A RA J K n s HJ HK NJ NK Hn k l.
  destruct (jidx J) as [mj|] eqn:EJ; [destruct (jidx K) as [mk|] eqn:EK|].
  2: { apply C07_add_dense_exact; auto. unfold weak. rewrite EJ, EK. reflexivity. }
  2: { apply C07_add_dense_exact; auto. unfold weak. rewrite EJ. reflexivity. }
  assert (WJ : weak J = true) by (unfold weak; rewrite EJ; reflexivity). assert (WK : weak K = true) by (unfold weak; rewrite EK; reflexivity).
  assert (HS : k = l \/ k = 1%nat \/ l = 1%nat -> exists r, jadd J K = Some r).
  { intros [E|E]; [destruct (@C07_add_sparse_same_rows_exact A RA J K n s HJ HK WJ WK E) as (r & Hr & _); eauto|].
    destruct (classic (same_idx k l s mj mk)) as [Q|Q].
    - destruct E as [E|E]; [unfold k in Q, E; rewrite E in Q; destruct (@C07_single_row_left_counted_k_times A RA J K mj mk n s l HJ HK EJ EK E eq_refl Q) as (r & Hr & _)|unfold l in Q, E; rewrite E in Q; destruct (@C07_single_row_right_counted_k_times A RA J K mj mk n s k HJ HK EJ EK eq_refl E Q) as (r & Hr & _)]; eauto.
    - destruct (@C07_single_row_other_indices_exact A RA J K mj mk n s HJ HK EJ EK E Q) as (r & Hr & _). eauto. }
  split.
  - split.
    + intros H. split; [|split]; intros E; (destruct HS as (r & Hr); [auto|congruence]).
    + intros (H1 & H2 & H3). exact (@C07_add_raises_when_rows_differ A RA J K mj mk n s HJ HK EJ EK H1 H2 H3).
  - intros r Hr.
    assert (HB : weak r = true /\ jwf n s r).
    { destruct (classic (k = l \/ ~ same_idx k l s mj mk)) as [Q|Q].
      - destruct (@C07_add_sparse_partial A RA J K mj mk n s r HJ HK EJ EK Hr Q) as (B1 & B2 & _). auto.
      - assert (Q1 : k <> l) by tauto. assert (Q2 : same_idx k l s mj mk) by (apply NNPP; tauto).
        assert (E : k = 1%nat \/ l = 1%nat) by (apply NNPP; intros N; rewrite (@C07_add_raises_when_rows_differ A RA J K mj mk n s HJ HK EJ EK Q1) in Hr by tauto; discriminate).
        destruct E as [E|E]; [unfold k in Q2, E; rewrite E in Q2; destruct (@C07_single_row_left_counted_k_times A RA J K mj mk n s l HJ HK EJ EK E eq_refl Q2) as (r' & Hr' & B1 & B2 & _)|unfold l in Q2, E; rewrite E in Q2; destruct (@C07_single_row_right_counted_k_times A RA J K mj mk n s k HJ HK EJ EK eq_refl E Q2) as (r' & Hr' & B1 & B2 & _)];
          (assert (r' = r) by congruence; subst r'; auto). }
    destruct HB as [B1 B2]. split; [exact B1|]. split; [exact B2|]. intros i p Hp. split; [|split].
    + intros E Q. destruct (@C07_single_row_left_counted_k_times A RA J K mj mk n s l HJ HK EJ EK E eq_refl Q) as (r' & Hr' & _ & _ & _ & V). assert (r' = r) by congruence. subst r'. exact (V i p Hp).
    + intros E Q. destruct (@C07_single_row_right_counted_k_times A RA J K mj mk n s k HJ HK EJ EK eq_refl E Q) as (r' & Hr' & _ & _ & _ & V). assert (r' = r) by congruence. subst r'. exact (V i p Hp).
    + intros Q. destruct (@C07_add_sparse_partial A RA J K mj mk n s r HJ HK EJ EK Hr Q) as (_ & _ & V). exact (V i p Hp).
Qed.
Print Assumptions C54_addition_of_every_pair.

(* ---- C55 ---- *)
Theorem C55_every_request : forall (A : Type) (RA : CRing A) (J : jac A) (n : nat) (s : shape) (o : nd Z) (K : nat) (t : shape),
  jwf n s J -> sh o = K :: t -> (0 < K)%nat -> (weak J = true /\ bto t s \/ weak J = false /\ t = [] /\ (0 < rows (jdata J))%nat) ->
  exists res, construct_jac_for J (Some o) = Some res /\ sh res = K :: s /\
    let k := Z.of_nat (rows (jdata J)) in
    forall q p, (q < K)%nat -> inb p s -> let z q := at_ o (q :: bproj t p) in at_ res (q :: p) =
      if weak J then (* sparse: the row of the requested input, for its first request; zeros for repeated and negative ones *)
        if (z q <? 0)%Z || existsb (fun r => (z r =? z q)%Z) (seq 0 q) then 0 else jent J (Z.to_nat (z q)) p
      else (* dense: array indexing; requests past the end give the last row, negative ones count from the end *)
        jent J (Z.to_nat (if (z q <? 0)%Z then Z.max 0 (k + z q) else Z.min (z q) (k - 1))) p.
Proof.
  intros A RA J n s o K t HJ Ho HK [[HW Hb]|(HW & -> & Hr)]; rewrite HW.
  - destruct (@C06_construct_sparse_value A RA J n s o K t HJ HW Ho Hb HK) as (res & E1 & E2 & E3). exists res. split; [exact E1|]. split; [exact E2|]. intros k q p Hq Hp z. destruct (E3 q p Hq Hp) as [V1 V2]. fold z in V1, V2.
    destruct (Z.ltb_spec (z q) 0); cbn [orb]; [apply V2; left; exact H|]. destruct (existsb _ _) eqn:Ex.
    + apply existsb_exists in Ex. destruct Ex as (r & Hr & Er). apply in_seq in Hr. apply Z.eqb_eq in Er. apply V2. right. exists r. split; [lia|exact Er].
    + apply V1; [exact H|]. intros r Hr Er. assert (Ex' : existsb (fun r => (z r =? z q)%Z) (seq 0 q) = true) by (apply existsb_exists; exists r; split; [apply in_seq; lia|apply Z.eqb_eq; exact Er]). congruence.
  - destruct (@C06_construct_dense_value A RA J n s o K HJ HW Ho HK Hr) as (res & E1 & E2 & E3). exists res. split; [exact E1|]. split; [exact E2|]. intros k q p Hq Hp z. destruct (E3 q p Hq Hp) as [V1 V2].
    assert (EZ : z q = at_ o [q]) by (unfold z; destruct p; reflexivity). rewrite EZ. destruct (Z.ltb_spec (at_ o [q]) 0); [apply V2|apply V1]; assumption.
Qed.
Print Assumptions C55_every_request.
(* one sparse row against three rows for the same input, against a dense operand, and against two rows: the three cases of C54 *)
Example C54_hypotheses_met : let J := Jac (arr [1%nat] [1%Z]) (Some (arr [1%nat] [5%Z])) in let K := Jac (arr [3%nat] [1; 2; 4]%Z) (Some (arr [3%nat] [5; 5; 5]%Z)) in let D := Jac (arr [6%nat] [1; 2; 3; 4; 5; 6]%Z) None in
  let L := Jac (arr [2%nat] [1; 2]%Z) (Some (arr [2%nat] [0; 5]%Z)) in
  jwf 6 [] J /\ jwf 6 [] K /\ jwf 6 [] D /\ jwf 6 [] L /\ nonempty J /\ nonempty K /\ nonempty L /\ same_idx 1 3 [] (arr [1%nat] [5%Z]) (arr [3%nat] [5; 5; 5]%Z) /\ jadd L K = None /\
  option_map (fun r => jent r 5 []) (jadd J K) = Some 10%Z /\ option_map (fun r => jent r 5 []) (jadd J D) = Some 7%Z /\ option_map (fun r => jent r 5 []) (jadd J L) = Some 3%Z.
Proof.
  cbv zeta. repeat match goal with |- _ /\ _ => split end.
  - exists 1%nat. split; [reflexivity|]. split; [reflexivity|]. intros r p Hr Hp. inversion Hp; subst. destruct r; [|lia]. vm_compute. split; [split; [discriminate|reflexivity]|discriminate].
  - exists 3%nat. split; [reflexivity|]. split; [reflexivity|]. intros r p Hr Hp. inversion Hp; subst. destruct r as [|[|[|r]]]; [| | |lia]; vm_compute; (split; [split; [discriminate|reflexivity]|discriminate]).
  - exists 6%nat. split; [reflexivity|]. cbn. lia.
  - exists 2%nat. split; [reflexivity|]. split; [reflexivity|]. intros r p Hr Hp. inversion Hp; subst. destruct r as [|[|r]]; [| |lia]; vm_compute; (split; [split; [discriminate|reflexivity]|discriminate]).
  - exists [0%nat]. repeat constructor.
  - exists [0%nat]. repeat constructor.
  - exists [0%nat]. repeat constructor.
  - intros r t p Hr Ht Hp. inversion Hp; subst. destruct r; [|lia]. destruct t as [|[|[|t]]]; [reflexivity..|lia].
  - reflexivity.
  - reflexivity.
  - reflexivity.
  - reflexivity.
Qed.
(* requests 4 (twice), 0, 2 and -1 of a sparse Jacobian with rows for the inputs 0, 4, 0; requests inside, past the end and negative of a dense one *)
Example C55_hypotheses_met : let J := Jac (arr [3%nat] [7; 8; 9]%Z) (Some (arr [3%nat] [0; 4; 0]%Z)) in let D := Jac (arr [3%nat] [7; 8; 9]%Z) None in
  weak J = true /\ weak D = false /\ rows (jdata D) = 3%nat /\
  option_map flat (construct_jac_for J (Some (arr [5%nat] [4; 0; 4; 2; -1]%Z))) = Some [8; 16; 0; 0; 0]%Z /\ option_map flat (construct_jac_for D (Some (arr [5%nat] [1; -1; 5; -2; -9]%Z))) = Some [8; 9; 9; 8; 7]%Z.
Proof. cbv zeta. split; [reflexivity|]. split; [reflexivity|]. split; [reflexivity|]. split; vm_compute; reflexivity. Qed.
