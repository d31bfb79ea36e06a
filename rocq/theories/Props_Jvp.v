(* Props_Jvp.v : property theorems about propagation of Jacobians and of the first-order part of the Laplacian
   (C09 - C14).  [step_ok n f args r] (Spec.v) says: r = (f(x), Jacobian, Laplacian part) with
   d out[p]/d input_i = sum over all argument elements of (d out[p]/d element) * (d element/d input_i), and
   Laplacian part = sum over all argument elements of (d out[p]/d element) * (Laplacian of the element). *)
From Verif Require Import Check.
Set Implicit Arguments.
Local Open Scope cr_scope.

(* ---- C09: elementwise functions of any number of sparse arguments ---- *)
Theorem C09_elementwise_exact : forall (A : Type) (RA : CRing A) (n : nat) (f : op A) (args : list (lapl A)) (fl : flags) (ax : option (list Z)) (r : result A),
  (0 < n)%nat -> args <> [] -> (forall a, In a args -> awf n a) -> elementwise f (xs_of args) ->
  sparse_diag_jvp f args fl ax = Some r ->
  step_ok n f args r /\ weak (snd (fst r)) = all_weak args.
Proof. exact @sparse_diag_sound. Qed.
Print Assumptions C09_elementwise_exact.
(* x = (x0, x1), y = (x1, x0): x * y + broadcasting of a third argument of shape () *)
Definition exx : lapl Z := sp [2]%nat [3; 4]%Z 1 [0; 1]%Z [1; 1]%Z [0; 0]%Z.
Definition exy : lapl Z := sp [2]%nat [4; 3]%Z 1 [1; 0]%Z [1; 1]%Z [5; 7]%Z.
Definition exs : lapl Z := sp [] [10]%Z 2 [0; 1]%Z [2; 9]%Z [1]%Z.
Example C09_hypotheses_met : (forall a, In a [exx; exy] -> awf 2 a) /\ elementwise op_mul (xs_of [exx; exy]) /\
  show (sparse_diag_jvp op_mul [exx; exy] 0%Z (Some [])) = Some ([12; 12], Some [0; 1; 1; 0], [4; 3; 3; 4], [15; 28])%Z.
Proof. split; [apply forall_awf; reflexivity|]. split; [apply ew_elementwise; discriminate|reflexivity]. Qed.
Example C09_hypotheses_met_broadcast : (forall a, In a [exx; exs] -> awf 2 a) /\ elementwise op_mul (xs_of [exx; exs]) /\
  show (sparse_diag_jvp op_mul [exx; exs] 0%Z (Some [])) = Some ([30; 40], Some [0; 0; 0; 1; 1; 1], [6; 8; 10; 10; 27; 36], [3; 4])%Z.
Proof. split; [apply forall_awf; reflexivity|]. split; [apply ew_elementwise; discriminate|reflexivity]. Qed.

(* ---- C10: summation ---- *)
Theorem C10_sum_exact : forall (A : Type) (RA : CRing A) (n : nat) (a : lapl A) (axes : list nat) (threshold : Z) (y : nd A) (g : jac A) (l : nd A),
  (0 < n)%nat -> awf n a -> NoDup axes -> (forall d, In d axes -> (d < ndim (lx a))%nat) ->
  sparse_sum_jvp a axes threshold = Some (y, g, l) ->
  let out := permute (keep_pos (ndim (lx a)) axes) (sh (lx a)) in
  let red := allix (permute axes (sh (lx a))) in
  y = np_sum axes (lx a) /\ sh y = out /\ jwf n out g /\ sh l = out /\
  (forall i p, inb p out -> jent g i p = sumL red (fun j => jent (ljac a) i (weave (ndim (lx a)) axes p j))) /\
  (forall p, inb p out -> at_ l p = sumL red (fun j => at_ (llap a) (weave (ndim (lx a)) axes p j))) /\
  (weak g = true -> (Z.of_nat (rows (jdata g)) <= threshold)%Z /\ (1 <= rows (jdata g))%nat) /\ jdistinct g.
Proof. exact @sparse_sum_exact. Qed.
Print Assumptions C10_sum_exact.
Theorem C10_sum_chain_rule : forall (A : Type) (RA : CRing A) (n : nat) (f : op A) (a : lapl A) (axes : list nat) (threshold : Z) (r : result A),
  (0 < n)%nat -> awf n a -> NoDup axes -> (forall d, In d axes -> (d < ndim (lx a))%nat) -> is_sum f (lx a) axes ->
  sparse_sum_jvp a axes threshold = Some r -> step_ok n f [a] r.
Proof. intros A RA n f a axes t r H1 H2 H3 H4 H5 H6. exact (proj1 (@sparse_sum_sound A RA n f a axes t r H1 H2 H3 H4 H5 H6)). Qed.
Print Assumptions C10_sum_chain_rule.
(* a 2x2 array with overlapping dependencies, summed over axis 0, on both sides of the threshold *)
Definition ex22 : lapl Z := sp [2; 2]%nat [1; 2; 3; 4]%Z 2 [0; 1; 2; 1; 3; -1; 0; 3]%Z [5; 6; 7; 8; 9; 0; 11; 12]%Z [1; 1; 1; 1]%Z.
Example C10_hypotheses_met : awf 4 ex22 /\
  show (sparse_sum_jvp ex22 [0]%nat 3%Z) = Some ([4; 6], Some [0; -1; 2; 1; 3; 3], [16; 0; 7; 14; 9; 12], [2; 2])%Z /\
  show (sparse_sum_jvp ex22 [0]%nat 2%Z) = Some ([4; 6], None, [16; 0; 0; 14; 7; 0; 9; 12], [2; 2])%Z.
Proof. split; [apply awfb_ok; reflexivity|split; reflexivity]. Qed.

(* ---- C11: general reductions ---- *)
(* Partial: needs [reduces], i.e. that the kept axes of the argument are the trailing (right-aligned) axes of the output.
   The refutation below shows that the claim fails without that. *)
Theorem C11_reduction_partial : forall (A : Type) (RA : CRing A) (n : nat) (f : op A) (a : lapl A) (axes : list Z) (threshold : Z) (fl : flags) (ax : option (list Z)) (r : result A),
  (0 < n)%nat -> awf n a -> weak (ljac a) = true ->
  let nax := norm_axes (ndim (lx a)) axes in
  NoDup nax -> (forall d, In d nax -> (d < ndim (lx a))%nat) -> reduces f (lx a) nax ->
  (axes_nil ax = true -> elementwise f [lx a]) ->
  sparse_reduction_jvp f a axes threshold fl ax = Some r ->
  step_ok n f [a] r /\ jdistinct (snd (fst r)) /\
  (weak (snd (fst r)) = true -> (Z.of_nat (rows (jdata (snd (fst r)))) <= threshold)%Z /\ (1 <= rows (jdata (snd (fst r))))%nat).
Proof. exact @sparse_reduction_sound. Qed.
Print Assumptions C11_reduction_partial.
(* functions that reduce all their axes (in_axes = None, no kwargs['axes']) are unconditionally covered *)
Theorem C11_general_function_exact : forall (A : Type) (RA : CRing A) (n : nat) (f : op A) (a : lapl A) (threshold : Z) (fl : flags) (r : result A),
  (0 < n)%nat -> awf n a -> jrow1 (ljac a) -> (0 < ndim (lx a))%nat -> has SUMMATION fl = false ->
  sparse_jvp1 f None a threshold fl None = Some r -> step_ok n f [a] r.
Proof.
  intros A RA n f a t fl r Hn Ha Hr Hd Hs E. refine (proj1 (@sparse_jvp1_sound A RA n f None a t fl None r Hn Ha Hr _ E)).
  unfold struct_at. cbn [nth]. set (nax := norm_axes _ _).
  assert (En : nax = seq 0 (ndim (lx a))).
  { unfold nax, axes_of, norm_axes. rewrite map_map. rewrite <- (map_id (seq 0 (ndim (lx a)))) at 2. apply map_ext_in.
    intros z Hz. destruct (Z.ltb_spec (Z.of_nat z) 0); lia. }
  destruct (axes_of None None (lx a)) as [|z l] eqn:Ea.
  { exfalso. apply (f_equal (@length Z)) in Ea. unfold axes_of in Ea. rewrite map_length, seq_length in Ea. cbn in Ea. lia. }
  rewrite En. split; [apply seq_NoDup|]. split; [intros d Hin; apply in_seq in Hin; lia|]. rewrite Hs.
  unfold reduces_at. cbn [nth].
  assert (Ek : keep_pos (ndim (lx a)) (seq 0 (ndim (lx a))) = []).
  { destruct (keep_pos (ndim (lx a)) (seq 0 (ndim (lx a)))) as [|k l'] eqn:Ek; auto.
    assert (Hk : In k (keep_pos (ndim (lx a)) (seq 0 (ndim (lx a))))) by (rewrite Ek; left; auto).
    apply keep_pos_In in Hk. destruct Hk as [Hk1 Hk2]. exfalso. apply Hk2. apply in_seq. lia. }
  rewrite Ek. cbn. intros p q _ _ Hne. exfalso. apply Hne. unfold bproj. cbn. reflexivity.
Qed.
Print Assumptions C11_general_function_exact.
Example C11_hypotheses_met : awf 4 ex22 /\ weak (ljac ex22) = true /\ reduces (op_sumsq [1%nat]) (lx ex22) [1%nat] /\
  show (sparse_reduction_jvp (op_sumsq [1%nat]) ex22 [-1]%Z 3%Z 0%Z (Some [-1]%Z)) =
    Some ([5; 25], None, [10; 66; 24; 64; 0; 42; 18; 96], [6; 14])%Z /\
  show (sparse_reduction_jvp (op_sumsq [1%nat]) ex22 [-1]%Z 4%Z 0%Z (Some [-1]%Z)) =
    Some ([5; 25], Some [0; 0; 1; 1; 3; 2; -1; 3], [10; 66; 24; 64; 18; 42; 0; 96], [6; 14])%Z.
Proof.
  split; [apply awfb_ok; reflexivity|]. split; [reflexivity|]. split; [|split; reflexivity].
  apply sumsq_reduces; [repeat constructor; cbn; tauto|]. intros d [<-|[]]. cbn. lia.
Qed.
(* Without the alignment condition the claim is false.  f(x)[i,j] = sum_k x[i,k] (the last axis is kept, as in softmax),
   annotated in_axes=-1; x is the 2x2 input itself.  The result says that f(x)[0,1] depends on x[1,:]. *)
Definition rowsum_keep : op Z :=
  Op (fun xs => Nd [2; 2]%nat (fun p => at_ (nth 0 xs nd0) [nth 0 p 0; 0]%nat + at_ (nth 0 xs nd0) [nth 0 p 0; 1]%nat))
     (fun _ p a q => if Nat.eqb (nth 0 p 0%nat) (nth 0 q 0%nat) then 1 else 0) (fun _ _ _ _ _ _ => 0).
Definition ex_seed22 : lapl Z := sp [2; 2]%nat [1; 2; 3; 4]%Z 1 [0; 1; 2; 3]%Z [1; 1; 1; 1]%Z [0; 0; 0; 0]%Z.
Theorem C11_keepdims_refuted : exists (f : op Z) (a : lapl Z) (r : result Z),
  awf 4 a /\ weak (ljac a) = true /\
  (forall p q, inb p (sh (o_fwd f [lx a])) -> inb q (sh (lx a)) -> nth 0 q 0%nat <> nth 0 p 0%nat -> o_d f [lx a] p 0 q = 0%Z) /\
  sparse_jvp1 f None a 4 0%Z (Some [-1]%Z) = Some r /\
  dspec f [a] 1 [0; 1]%nat = 1%Z /\ jent (snd (fst r)) 1 [0; 1]%nat = 0%Z /\ ~ step_ok 4 f [a] r.
Proof.
  exists rowsum_keep, ex_seed22, (got (sparse_jvp1 rowsum_keep None ex_seed22 4 0%Z (Some [-1]%Z))). split; [apply awfb_ok; reflexivity|]. split; [reflexivity|]. split.
  - intros p q _ _ H. cbn. destruct (Nat.eqb_spec (nth 0 p 0%nat) (nth 0 q 0%nat)); congruence.
  - split; [apply got_ok; vmr|].
    assert (E1 : dspec rowsum_keep [ex_seed22] 1 [0; 1]%nat = 1%Z) by vmr.
    assert (E2 : jent (snd (fst (got (sparse_jvp1 rowsum_keep None ex_seed22 4 0%Z (Some [-1]%Z))))) 1 [0; 1]%nat = 0%Z) by vmr.
    revert E2. generalize (got (sparse_jvp1 rowsum_keep None ex_seed22 4 0%Z (Some [-1]%Z))). intros r E2.
    split; [exact E1|]. split; [exact E2|]. intros H.
    assert (H0 : inb [0; 1]%nat (sh (o_fwd rowsum_keep (xs_of [ex_seed22])))) by (cbn; repeat constructor).
    pose proof (@step_ok_jent _ _ _ _ 1%nat _ H H0) as H1. rewrite E1, E2 in H1. discriminate H1.
Qed.
Print Assumptions C11_keepdims_refuted.

(* ---- C12: indexing ---- *)
Theorem C12_indexing_exact : forall (A : Type) (RA : CRing A) (n : nat) (g : iop) (ok filled : bool) (mg : mergefn)
    (args : list (lapl A)) (extra : list (nd A)) (fl : flags) (ax : option (list Z)) (r : result A),
  (0 < n)%nat -> args <> [] -> (forall a, In a args -> awf n a) -> merge_ok mg (length args) (length extra) ->
  iop_wf g (map (@sh A) (mg _ (xs_of args) extra)) ->
  let f := merged (iop_op g) mg (length args) extra in
  (axes_nil ax = true -> elementwise f (xs_of args)) ->
  sparse_index_jvp g ok filled mg args extra fl ax = Some r -> step_ok n f args r.
Proof. exact @sparse_index_sound. Qed.
Print Assumptions C12_indexing_exact.
(* concatenate([x, constant, s[None]]) with different row counts, and the reversed slice x[::-1] *)
Definition cat_iop : iop := Iop [4]%nat (fun p => match nth 0 p 0%nat with 0 => (0, [0]) | 1 => (0, [1]) | 2 => (1, [0]) | _ => (2, [0]) end)%nat.
Definition exs1 : lapl Z := sp [1]%nat [10]%Z 2 [0; 1]%Z [2; 9]%Z [1]%Z.
Definition mg_tft : mergefn := fun X => @merge_mask [true; false; true] X.
Example C12_hypotheses_met : (forall a, In a [exx; exs1] -> awf 2 a) /\ merge_ok mg_tft 2 1 /\
  iop_wf cat_iop (map (@sh Z) (mg_tft (xs_of [exx; exs1]) [arr [1]%nat [77]%Z])) /\
  show (sparse_index_jvp cat_iop true true mg_tft [exx; exs1] [arr [1]%nat [77]%Z] INDEXING None) =
    Some ([3; 4; 77; 10], Some [0; 1; -1; 0; -1; -1; -1; 1], [1; 1; 0; 2; 0; 0; 0; 9], [0; 0; 0; 1])%Z.
Proof.
  split; [apply forall_awf; reflexivity|]. split.
  - exists [0; 2; 1]%nat. split.
    + cbn. apply perm_skip. apply perm_swap.
    + intros X d [|x [|y [|z t]]] [|e [|e2 t2]]; try discriminate. reflexivity.
  - split; [|reflexivity]. intros p Hp. destruct p as [|i [|j p]]; inversion Hp; subst; [|inversion H4].
    cbn in H2. destruct i as [|[|[|[|i]]]]; try lia; cbn; split; try lia; repeat constructor.
Qed.

(* ---- C13: mixed sparse / dense arguments ---- *)
(* Partial: for three or more elementwise arguments of which some are dense and some sparse, the sparse ones must not store the same
   dependency in several rows ([jinv]).  The refutation below shows that the condition is needed. *)
Theorem C13_propagation_partial : forall (A : Type) (RA : CRing A) (n : nat) (F : fn A) (mg : mergefn) (extra : list (nd A)) (threshold : Z) (fl : flags)
    (in_axes : option (list Z)) (args : list (lapl A)) (r : result A),
  (0 < n)%nat -> args <> [] -> merge_ok mg (length args) (length extra) -> (forall a, In a args -> awf n a /\ jrow1 (ljac a)) ->
  let f := merged (f_op F) mg (length args) extra in let xs := xs_of args in
  (forall a, (a < length args)%nat -> struct_at f (f_kwaxes F) fl in_axes xs a) ->
  iop_ok F fl (mg _ xs extra) ->
  (any_weak args = false \/ all_weak args && (has INDEXING fl || axes_nil in_axes) = true \/
   (length args <= 2)%nat /\ all_weak args = false \/ length args = 1%nat \/
   forall a, In a args -> axes_of (f_kwaxes F) in_axes (lx a) <> [] \/ jinv (ljac a)) ->
  jvp_fn F mg extra threshold fl in_axes args = Some r ->
  step_ok n f args r /\ jrow1 (snd (fst r)).
Proof. exact @jvp_fn_sound. Qed.
Print Assumptions C13_propagation_partial.
(* f(a, b, c) = a + b + c elementwise; a = (x + x[::-1])[1:2] (two rows, both x1), b = x[1:2], c dense: b is counted twice *)
Definition op3 : op Z := ew_op (fun v => nth 0 v 0 + nth 1 v 0 + nth 2 v 0)%Z (fun _ _ => 1%Z) (fun _ _ _ => 0%Z).
Definition mg_all : mergefn := fun X a _ => a.
Theorem C13_three_elementwise_refuted : exists (args : list (lapl Z)) (r : result Z),
  (forall a, In a args -> awf 3 a /\ jrow1 (ljac a)) /\ elementwise op3 (xs_of args) /\
  jvp_fn (Fn op3 None None) mg_all [] 3 0%Z (Some []) args = Some r /\
  jent (snd (fst r)) 1 [0]%nat = 4%Z /\ dspec (merged op3 mg_all 3 []) args 1 [0]%nat = 3%Z.
Proof.
  exists [sp [1]%nat [4]%Z 2 [1; 1]%Z [1; 1]%Z [0]%Z; sp [1]%nat [2]%Z 1 [1]%Z [1]%Z [0]%Z; de [1]%nat [5]%Z 3 [1; 0; 1]%Z [0]%Z].
  eexists (got _). split; [|split; [apply ew_elementwise; discriminate|split; [apply got_ok; vmr|split; vmr]]].
  intros a Ha. split; [|apply jrow1b_ok; destruct Ha as [<-|[<-|[<-|[]]]]; reflexivity].
  revert a Ha. apply forall_awf. reflexivity.
Qed.
Print Assumptions C13_three_elementwise_refuted.
(* the same happens with two scalar sparse arguments of a function without in_axes annotation *)
Theorem C13_two_scalars_refuted : exists (args : list (lapl Z)) (r : result Z),
  (forall a, In a args -> awf 3 a /\ jrow1 (ljac a)) /\
  jvp_fn (Fn op_add None None) mg_all [] 3 0%Z None args = Some r /\
  jent (snd (fst r)) 1 [] = 4%Z /\ dspec (merged op_add mg_all 2 []) args 1 [] = 3%Z.
Proof.
  exists [sp [] [4]%Z 2 [1; 1]%Z [1; 1]%Z [0]%Z; sp [] [2]%Z 1 [1]%Z [1]%Z [0]%Z].
  eexists (got _). split; [|split; [apply got_ok; vmr|split; vmr]].
  intros a Ha. split; [|apply jrow1b_ok; destruct Ha as [<-|[<-|[]]]; reflexivity].
  revert a Ha. apply forall_awf. reflexivity.
Qed.
Print Assumptions C13_two_scalars_refuted.
(* a single derivative-carrying argument never enters the argument-by-argument loop (whose slicing extra[:-0] would drop arguments) *)
Theorem C13_single_argument_parallel : forall (A : Type) (RA : CRing A) (F : fn A) (mg : mergefn) (extra : list (nd A)) (threshold : Z) (fl : flags)
    (in_axes : option (list Z)) (a : lapl A),
  jvp_fn F mg extra threshold fl in_axes [a] = parallel_jvp F mg extra threshold fl in_axes [a].
Proof. intros. unfold jvp_fn. cbn. destruct (weak (ljac a)); cbn; rewrite ?orb_true_r; reflexivity. Qed.
Print Assumptions C13_single_argument_parallel.
(* mul of a sparse and a dense argument *)
Definition exd : lapl Z := de [2]%nat [7; 8]%Z 2 [1; 2; 3; 4]%Z [9; 9]%Z.
Example C13_hypotheses_met : (forall a, In a [exx; exd] -> awf 2 a /\ jrow1 (ljac a)) /\
  (forall a, (a < 2)%nat -> struct_at (merged op_mul mg_all 2 []) None MULTIPLICATION (Some []) (xs_of [exx; exd]) a) /\
  show (jvp_fn (Fn op_mul None None) mg_all [] 2 MULTIPLICATION (Some []) [exx; exd]) = Some ([21; 32], None, [10; 8; 9; 24], [27; 36])%Z.
Proof.
  split; [|split; [|reflexivity]].
  - intros a Ha. split; [|apply jrow1b_ok; destruct Ha as [<-|[<-|[]]]; reflexivity].
    revert a Ha. apply forall_awf. reflexivity.
  - intros a Ha. destruct a as [|[|a]]; [| |lia]; (split; [exists [], [2]%nat; split; [reflexivity|repeat constructor; auto]|]);
      intros p q Hp Hq Hne; cbn in Hq |- *; rewrite ixeqb_neq; auto.
Qed.

(* ---- C14: the threshold ---- *)
Theorem C14_dense_stays_dense : forall (A : Type) (RA : CRing A) (n : nat) (F : fn A) (mg : mergefn) (extra : list (nd A)) (threshold : Z) (fl : flags)
    (in_axes : option (list Z)) (args : list (lapl A)) (r : result A),
  args <> [] -> any_weak args = false -> jvp_fn F mg extra threshold fl in_axes args = Some r -> weak (snd (fst r)) = false.
Proof.
  intros A RA n F mg extra t fl ax args r Hne Hw E. unfold jvp_fn in E. rewrite Hw in E. cbn in E. unfold parallel_jvp in E.
  assert (Ha : all_weak args = false).
  { destruct args as [|a l]; [congruence|]. cbn in Hw |- *. apply orb_false_iff in Hw. destruct Hw as [-> _]. reflexivity. }
  rewrite Ha in E. cbn in E. unfold dense_jvp in E.
  match type of E with bind ?x _ = _ => destruct x as [[[y g] l]|]; [|discriminate] end.
  cbn in E. injection E as <-. reflexivity.
Qed.
Print Assumptions C14_dense_stays_dense.
Theorem C14_threshold_respected_partial : forall (A : Type) (RA : CRing A) (n : nat) (f : op A) (kwaxes : option (list Z)) (a : lapl A) (threshold : Z) (fl : flags)
    (in_axes : option (list Z)) (r : result A),
  (0 < n)%nat -> awf n a -> jrow1 (ljac a) -> struct_at f kwaxes fl in_axes [lx a] 0 ->
  sparse_jvp1 f kwaxes a threshold fl in_axes = Some r ->
  axes_of kwaxes in_axes (lx a) <> [] -> weak (snd (fst r)) = true -> (Z.of_nat (rows (jdata (snd (fst r)))) <= threshold)%Z.
Proof.
  intros A RA n f kw a t fl ax r H1 H2 H3 H4 H5 H6 H7.
  exact (proj2 (proj2 (proj2 (proj2 (@sparse_jvp1_sound A RA n f kw a t fl ax r H1 H2 H3 H4 H5)))) H6 H7).
Qed.
Print Assumptions C14_threshold_respected_partial.
(* elementwise operations are not subject to the threshold: x*y + ... keeps a sparse Jacobian with more rows than the threshold *)
Theorem C14_elementwise_exceeds_refuted : exists (args : list (lapl Z)) (r : result Z),
  (forall a, In a args -> awf 2 a /\ (Z.of_nat (rows (jdata (ljac a))) <= 1)%Z) /\
  jvp_fn (Fn op_mul None None) mg_all [] 1 MULTIPLICATION (Some []) args = Some r /\
  weak (snd (fst r)) = true /\ (1 < Z.of_nat (rows (jdata (snd (fst r)))))%Z.
Proof.
  exists [exx; exy]. eexists (got _). split; [|split; [apply got_ok; vmr|split; [vmr|vmr]]].
  intros a Ha. split; [|destruct Ha as [<-|[<-|[]]]; cbn; lia]. revert a Ha. apply forall_awf. reflexivity.
Qed.
Print Assumptions C14_elementwise_exceeds_refuted.
Example C14_hypotheses_met : awf 4 ex22 /\ jrow1 (ljac ex22) /\ struct_at (op_sumsq [1%nat]) None 0%Z (Some [-1]%Z) [lx ex22] 0 /\
  show (sparse_jvp1 (op_sumsq [1%nat]) None ex22 4 0%Z (Some [-1]%Z)) =
    Some ([5; 25], Some [0; 0; 1; 1; 3; 2; -1; 3], [10; 66; 24; 64; 18; 42; 0; 96], [6; 14])%Z.
Proof.
  split; [apply awfb_ok; reflexivity|]. split; [apply jrow1b_ok; reflexivity|]. split; [|vmr].
  cbn. split; [repeat constructor; cbn; tauto|]. split; [intros d [<-|[]]; lia|].
  intros p q Hp Hq Hne. apply sumsq_reduces with (x := lx ex22); auto; [repeat constructor; cbn; tauto|]. intros d [<-|[]]. cbn. lia.
Qed.
