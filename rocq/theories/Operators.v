(* Operators.v : model of folx/operators.py and its properties (C36). *)
From Coq Require Import Reals Lra QArith FunctionalExtensionality.
From Coquelicot Require Import Coquelicot.
From Verif Require Export Props_Calc Props_Static.
Set Implicit Arguments.
Open Scope nat_scope.
Local Notation fwd c2r := (forward_laplacian (prim_reg c2r) (name_reg c2r) c2r).

(* ================= model ================= *)
(* jax.grad of g, a real function of n flat coordinates, at v; jax.linearize of the gradient in direction w (coordinate i of the result) *)
Definition grad (g : (nat -> R) -> R) (v : nat -> R) (i : nat) : R := Derive (fun s => g (fun k => v k + (if Nat.eqb k i then s else 0))%R) 0%R.
(* jax.linearize(jax.grad(g), v)[1](w), coordinate i (operators.py:41-79) *)
Definition dgrad (g : (nat -> R) -> R) (v w : nat -> R) (i : nat) : R := Derive (fun t => grad g (fun k => v k + t * w k)%R i) 0%R.
(* jnp.eye(n)[i] *)
Definition eye (i k : nat) : R := if Nat.eqb k i then 1%R else 0%R.
(* the array x plus the flat displacement v: (x.reshape(-1) + v).reshape(x_shape) *)
Definition displaced (x : nd R) (v : nat -> R) : nd R := Nd (sh x) (fun p => at_ x p + v (ravel_ix (sh x) p))%R.
(* no displacement *)
Definition zero_v : nat -> R := fun _ => 0%R.
(* operators.py:42-62 LoopLaplacianOperator: f is called on arrays of the shape of x; the scan collects dgrad_f(eye[i])[i] *)
Definition loop_op (f : nd R -> R) (x : nd R) : nd R * nd R :=
  let n := prod (sh x) in let f_ v := f (displaced x v) in
  (Nd [n] (fun p => dgrad f_ zero_v (eye (hd 0 p)) (hd 0 p)), Nd [n] (fun p => grad f_ zero_v (hd 0 p))).
(* operators.py:65-78 ParallelLaplacianOperator: f is called on the flattened array; the diagonal of vmap(dgrad_f)(eye) *)
Definition parallel_op (f : nd R -> R) (x : nd R) : nd R * nd R :=
  let y := reshape [prod (sh x)] x in let n := prod (sh x) in let f_ v := f (displaced y v) in
  (Nd [n] (fun p => dgrad f_ zero_v (eye (hd 0 p)) (hd 0 p)), Nd [n] (fun p => grad f_ zero_v (hd 0 p))).
(* operators.py:26-39 ForwardLaplacianOperator on a traced scalar function *)
Definition forward_op (c2r : bool) (t : Q) (j : @jaxpr R prim) (x : nd R) : option (nd R * nd R) :=
  let* rs := fwd c2r t j (ones [x]) [AX x] in
  match rs with [AL a] => let* D := dense_array (ljac a) in Some (llap a, D) | _ => None end.

(* ================= C36 ================= *)
Lemma move_displaced (x : nd R) i s : CalcTop.move [x] i s = [displaced x (fun k => if Nat.eqb k i then s else 0%R)].
Proof. reflexivity. Qed.
Lemma loop_derivs (f : nd R -> R) (x : nd R) i d h : let phi := fun t => f (displaced x (fun k => if Nat.eqb k i then t else 0%R)) in
  is_derive phi 0%R d -> is_derive_n phi 2 0%R h ->
  grad (fun v => f (displaced x v)) zero_v i = d /\ dgrad (fun v => f (displaced x v)) zero_v (eye i) i = h.
Proof.
  intros phi Hd Hh. unfold dgrad, grad, zero_v. split.
  - rewrite <- (is_derive_unique _ _ _ Hd). apply Derive_ext. intros s. unfold phi. f_equal. f_equal. extensionality k. destruct (Nat.eqb k i); ring.
  - assert (E : forall t, Derive (fun s => f (displaced x (fun k => (0 + t * eye i k + (if Nat.eqb k i then s else 0))%R))) 0%R = Derive phi t).
    { intros t. transitivity (Derive (fun s => phi (t + s)%R) 0%R).
      - apply Derive_ext. intros s. unfold phi. f_equal. f_equal. extensionality k. unfold eye. destruct (Nat.eqb k i); ring.
      - unfold Derive. f_equal. apply Lim_ext. intros y. f_equal. f_equal. + f_equal. ring. + f_equal. ring. }
    rewrite (Derive_ext _ (Derive phi) 0%R E). apply is_derive_unique. exact Hh.
Qed.
(* The full claim is false: the Loop and Parallel operators return the vector of second derivatives, the Forward operator their sum, and the
   Parallel operator evaluates the function on a flattened array (C36_operators_refuted).  What is missing from the equality of the pairs is
   exactly the summation and the shape. *)
(* the comparison for any threshold, from exactness of the result (exact) *)
Lemma forward_loop_any (c2r : bool) (t : Q) (j : @jaxpr R prim) (x : nd R) (l D : nd R) :
  0 < prod (sh x) -> (forall ys, plain_run j true [x] = Some ys -> map (@sh R) ys = [[]]) -> forward_op c2r t j x = Some (l, D) ->
  (forall rs, fwd c2r t j (ones [x]) [AX x] = Some rs -> exact (plain_run j true) [x] rs) ->
  (forall a J, fwd c2r t j (ones [x]) [AX x] = Some [AL a] -> dense_array (ljac a) = Some J -> exists k, sh J = k :: sh (lx a) /\ k <= prod (sh x)) ->
  let n := prod (sh x) in let (ll, g) := loop_op (fun y => out_at (plain_run j true) 0 [] [y]) x in
  sh ll = [n] /\ at_ l [] = sumn n (fun i => at_ ll [i]) /\ sh g = [n] /\
  exists k, k <= n /\ sh D = [k] /\ (forall i, i < k -> at_ D [i] = at_ g [i]) /\ forall i, k <= i < n -> at_ g [i] = 0%R.
Proof.
  intros Hn Hsc H HX HJ n. unfold loop_op. unfold forward_op in H. destruct (fwd c2r t j (ones [x]) [AX x]) as [rs|] eqn:EF; [|discriminate H]. cbn [bind] in H.
  destruct rs as [|[a|y] [|r1 rs]]; try discriminate H. destruct (dense_array (ljac a)) as [D'|] eqn:ED; [|discriminate H]. cbn [bind] in H. injection H as El Ed. subst l D'.
  assert (Hnn : total (map (@sh R) [x]) = n) by (unfold total; cbn; rewrite Nat.add_0_r; reflexivity).
  destruct (HJ a D eq_refl ED) as (k & SJ & Hk). destruct (HX _ eq_refl) as (ys & EY & EL & HX'). specialize (Hsc ys EY). destruct ys as [|y [|y' ys]]; try discriminate Hsc. cbn in Hsc. injection Hsc as Sy.
  destruct (HX' 0 ltac:(cbn; lia)) as [S0 HP]. cbn [nth aval] in S0, HP. rewrite Sy in S0, HP. destruct (HP [] ltac:(constructor)) as (_ & h & Hd & HL). rewrite Hnn in *. rewrite S0 in SJ.
  assert (ER : rows D = k) by (unfold rows; rewrite SJ; reflexivity).
  assert (HG : forall i, i < n -> let phi := fun t => out_at (plain_run j true) 0 [] [displaced x (fun k => if Nat.eqb k i then t else 0%R)] in
     is_derive phi 0%R (if i <? k then at_ D [i] else 0%R) /\ is_derive_n phi 2 0%R (h i)).
  { intros i Hi phi. destruct (Hd i Hi) as [H1 H2]. cbn [jac_row] in H1. rewrite ED, ER in H1. split; assumption. }
  split; [reflexivity|]. split; [|split; [reflexivity|]].
  - cbn [lap_of] in HL. rewrite HL. apply (@sumn_ext R). intros i Hi. cbn [at_ hd]. destruct (HG i Hi) as [H1 H2]. symmetry. exact (proj2 (loop_derivs (fun y => out_at (plain_run j true) 0 [] [y]) x i H1 H2)).
  - exists k. split; [exact Hk|]. split; [exact SJ|]. split; intros i Hi; cbn [at_ hd].
    + destruct (HG i ltac:(lia)) as [H1 H2]. pose proof (proj1 (loop_derivs (fun y => out_at (plain_run j true) 0 [] [y]) x i H1 H2)) as E. destruct (Nat.ltb_spec i k); [|lia]. symmetry. exact E.
    + destruct (HG i ltac:(lia)) as [H1 H2]. pose proof (proj1 (loop_derivs (fun y => out_at (plain_run j true) 0 [] [y]) x i H1 H2)) as E. destruct (Nat.ltb_spec i k); [lia|]. exact E.
Qed.
Theorem C36_forward_loop_partial : forall (c2r : bool) (t : Q) (j : @jaxpr R prim) (x : nd R) (l D : nd R),
  (t <= 0)%Q -> 0 < prod (sh x) -> smallj j -> smooth_run j true [x] -> (forall ys, plain_run j true [x] = Some ys -> map (@sh R) ys = [[]]) ->
  forward_op c2r t j x = Some (l, D) ->
  let n := prod (sh x) in let (ll, g) := loop_op (fun y => out_at (plain_run j true) 0 [] [y]) x in
  sh ll = [n] /\ at_ l [] = sumn n (fun i => at_ ll [i]) /\ sh D = [n] /\ sh g = [n] /\ forall i, i < n -> at_ D [i] = at_ g [i].
Proof.
  intros c2r t j x l D Ht Hn HS HR Hsc H n.
  assert (Hn' : 0 < total (map (@sh R) [x])) by (unfold total; cbn; rewrite Nat.add_0_r; exact Hn).
  assert (Hnn : total (map (@sh R) [x]) = n) by (unfold total; cbn; rewrite Nat.add_0_r; reflexivity).
  assert (HD : sh D = [n]).
  { unfold forward_op in H. destruct (fwd c2r t j (ones [x]) [AX x]) as [rs|] eqn:EF; [|discriminate H]. cbn [bind] in H. destruct rs as [|[a|y] [|r1 rs]]; try discriminate H.
    destruct (dense_array (ljac a)) as [D'|] eqn:ED; [|discriminate H]. cbn [bind] in H. injection H as El Ed. subst l D'.
    destruct (@C01_forward_laplacian_is_exact c2r t j [x] [AL a] Ht Hn' HS HR EF) as (ys & EY & EL & HX'). specialize (Hsc ys EY). destruct ys as [|y [|y' ys]]; try discriminate Hsc. cbn in Hsc. injection Hsc as Sy.
    destruct (HX' 0 ltac:(cbn; lia)) as [S0 _]. cbn [nth aval] in S0. rewrite Sy in S0.
    destruct (@C08_one_row_per_input_partial c2r t j (ones [x]) [x] [AL a] Ht Hn' (ones_ok [x]) HS HR EF a (or_introl eq_refl)) as (J & EJ & SJ). rewrite ED in EJ. injection EJ as <-. rewrite Hnn, S0 in SJ. exact SJ. }
  pose proof (@forward_loop_any c2r t j x l D Hn Hsc H (fun rs E => @C01_forward_laplacian_is_exact c2r t j [x] rs Ht Hn' HS HR E)) as K. cbv zeta in K. unfold loop_op in *.
  destruct K as (K1 & K2 & K3 & k & K4 & K5 & K6 & _).
  - intros a J EF EJ. destruct (@C08_one_row_per_input_partial c2r t j (ones [x]) [x] [AL a] Ht Hn' (ones_ok [x]) HS HR EF a (or_introl eq_refl)) as (J' & EJ' & SJ). rewrite EJ in EJ'. injection EJ' as <-. rewrite Hnn in SJ. exists n. split; [exact SJ|apply Nat.le_refl].
  - rewrite HD in K5. injection K5 as Ek. subst k. repeat (split; [assumption|]). exact K6.
Qed.
Print Assumptions C36_forward_loop_partial.
(* The same in sparse mode, for static programs (Props_Static.v): the rows missing from the Forward operator's Jacobian are zeros of the gradient. *)
Theorem C36_forward_loop_sparse_partial : forall (c2r : bool) (t : Q) (j : @jaxpr R prim) (x : nd R) (l D : nd R),
  0 < prod (sh x) -> smallj j -> static_run j true [x] -> (forall ys, plain_run j true [x] = Some ys -> map (@sh R) ys = [[]]) ->
  forward_op c2r t j x = Some (l, D) ->
  let n := prod (sh x) in let (ll, g) := loop_op (fun y => out_at (plain_run j true) 0 [] [y]) x in
  sh ll = [n] /\ at_ l [] = sumn n (fun i => at_ ll [i]) /\ sh g = [n] /\
  exists k, k <= n /\ sh D = [k] /\ (forall i, i < k -> at_ D [i] = at_ g [i]) /\ forall i, k <= i < n -> at_ g [i] = 0%R.
Proof.
  intros c2r t j x l D Hn HS HR Hsc H.
  assert (Hn' : 0 < total (map (@sh R) [x])) by (unfold total; cbn; rewrite Nat.add_0_r; exact Hn).
  assert (Hnn : total (map (@sh R) [x]) = prod (sh x)) by (unfold total; cbn; rewrite Nat.add_0_r; reflexivity).
  apply (@forward_loop_any c2r t j x l D Hn Hsc H (fun rs E => @C01_sparse_mode_exact_partial c2r t j [x] rs Hn' HS HR E)).
  intros a J EF EJ. destruct (@C01_sparse_mode_exact_partial c2r t j [x] [AL a] Hn' HS HR EF) as (ys & EY & EL & HX'). specialize (Hsc ys EY). destruct ys as [|y [|y' ys]]; try discriminate Hsc. cbn in Hsc. injection Hsc as Sy.
  destruct (HX' 0 ltac:(cbn; lia)) as [S0 _]. cbn [nth aval] in S0. rewrite Sy in S0.
  destruct (@C08_rows_at_most_inputs c2r t j (ones [x]) [x] [AL a] Hn' (ones_ok [x]) HS HR EF a (or_introl eq_refl)) as (J' & k & EJ' & SJ & Hk); [exists []; rewrite S0; constructor|].
  rewrite EJ in EJ'. injection EJ' as <-. exists k. rewrite Hnn in Hk. auto.
Qed.
Print Assumptions C36_forward_loop_sparse_partial.
(* Parallel and Loop agree on arrays with one axis, and on every array when f does not look at the shape of its argument. *)
Theorem C36_parallel_loop_partial : forall (f : nd R -> R) (x : nd R),
  (forall y z : nd R, eqa y z -> f y = f z) -> ((exists n, sh x = [n]) \/ (forall y, sh y = sh x -> f (reshape [prod (sh x)] y) = f y)) ->
  let (l, g) := loop_op f x in let (l', g') := parallel_op f x in eqa l l' /\ eqa g g'.
Proof.
  intros f x Hext Hcase. unfold loop_op, parallel_op.
  assert (EF : (fun v => f (displaced (reshape [prod (sh x)] x) v)) = (fun v => f (displaced x v))).
  { extensionality v. destruct Hcase as [[n En]|Hs].
    - apply Hext. unfold displaced, eqa. cbn [sh at_ reshape]. rewrite En. cbn [prod]. rewrite Nat.mul_1_r. split; [reflexivity|]. intros p Hp. rewrite unravel_ravel by exact Hp. reflexivity.
    - rewrite <- (Hs (displaced x v) eq_refl). apply Hext. unfold displaced, eqa. cbn [sh at_ reshape]. split; [reflexivity|]. intros p Hp.
      assert (HR : ravel_ix [prod (sh x)] p < prod (sh x)) by (pose proof (ravel_lt Hp) as HR; cbn [prod] in HR; lia).
      rewrite (ravel_unravel _ HR). reflexivity. }
  rewrite EF. split; split; reflexivity.
Qed.
Print Assumptions C36_parallel_loop_partial.
(* f(x) = jnp.sum(x[0] ** 2): x[0] is a row of a matrix but a number of a vector *)
Definition first_sq (x : nd R) : R :=
  match sh x with [_] => Rmult (at_ x [0]) (at_ x [0]) | _ => sumL (allix (tl (sh x))) (fun p => Rmult (at_ x (0 :: p)) (at_ x (0 :: p))) end.
(* example matrix *)
Definition exM : nd R := lits [1; 2] [1; 3]%R.
Theorem C36_operators_refuted :
  (exists l D, forward_op false 0%Q exF (lits [2] [2; 3]%R) = Some (l, D) /\ sh l = [] /\ sh (fst (loop_op (fun y => out_at (plain_run exF true) 0 [] [y]) (lits [2] [2; 3]%R))) = [2]) /\
  at_ (snd (loop_op first_sq exM)) [1] = 6%R /\ at_ (snd (parallel_op first_sq exM)) [1] = 0%R.
Proof.
  split; [|split].
  - assert (H : match forward_op false 0%Q exF (lits [2] [2; 3]%R) with Some (l, D) => sh l = [] | None => False end) by (vm_compute; reflexivity).
    destruct (forward_op false 0%Q exF (lits [2] [2; 3]%R)) as [[l D]|]; [|contradiction]. exists l, D. auto.
  - cbn [loop_op snd at_ hd]. unfold grad. apply is_derive_unique. unfold first_sq, displaced, exM, lits, zero_v. cbn. auto_derive; [exact I|]. ring.
  - cbn [parallel_op snd at_ hd]. unfold grad. apply is_derive_unique. unfold first_sq, displaced, exM, lits, zero_v. cbn. auto_derive; [exact I|]. ring.
Qed.
Print Assumptions C36_operators_refuted.
(* the hypotheses are met by the program exF of Props_Calc.v at (2, 3), and by the matrix exM with f = sum of squares of all entries *)
Example C36_hypotheses_met : smallj exF /\ smooth_run exF true [lits [2] [2; 3]%R] /\ issome (forward_op false 0%Q exF (lits [2] [2; 3]%R)) = true /\
  (forall ys, plain_run exF true [lits [2] [2; 3]%R] = Some ys -> map (@sh R) ys = [[]]).
Proof.
  split; [exact exF_small|]. split; [exact exF_smooth|]. split; [vm_compute; reflexivity|]. intros ys Hy.
  assert (H : option_map (map (@sh R)) (plain_run exF true [lits [2] [2; 3]%R]) = Some [[]]) by (vm_compute; reflexivity). rewrite Hy in H. cbn in H. injection H as H. exact H.
Qed.
(* f(x) = x[0] * x[0] at (2, 3) with threshold 1: the Forward operator's Jacobian has one row, the gradient is (4, 0) *)
Definition opIdx : iop := Iop [] (fun p => (0, [0])).
(* specification: an example program *)
Definition opS : @jaxpr R prim := Jaxpr [] [0] [] [pe (PIndex opIdx true false) [V 0] 1; pe PMul [V 1; V 1] 2] [V 2].
Example C36_sparse_hypotheses_met : smallj opS /\ static_run opS true exX /\ (forall ys, plain_run opS true exX = Some ys -> map (@sh R) ys = [[]]) /\
  option_map (fun r => sh (snd r)) (forward_op false 1%Q opS (nth 0 exX nd0)) = Some [1].
Proof.
  split; [unfold opS; small_prog|]. split; [|split].
  - unfold static_run, opS, exX. cbn -[prim_op applies diff_at o_fwd]. repeat match goal with |- _ /\ _ => split end; try fits; try (left; reflexivity); try (right; reflexivity).
    + intros p Hp. cbn in *. split; [lia|]. constructor; [lia|constructor].
    + left. repeat constructor.
  - intros ys Hy. assert (H : option_map (map (@sh R)) (plain_run opS true exX) = Some [[]]) by (vm_compute; reflexivity). rewrite Hy in H. cbn in H. injection H as H. exact H.
  - vm_compute. reflexivity.
Qed.
Example C36_shape_free : let f := fun y : nd R => sumL (flat y) (fun v => Rmult v v) in
  (forall y z : nd R, eqa y z -> f y = f z) /\ (forall y, sh y = sh exM -> f (reshape [prod (sh exM)] y) = f y).
Proof.
  cbv zeta. split.
  - intros y z [Hs Ha]. unfold flat. rewrite <- Hs, !sumL_map. apply (@sumL_ext R). intros p Hp. rewrite Ha by (apply allix_spec; exact Hp). reflexivity.
  - intros y Hy. unfold flat. rewrite Hy. cbn [reshape sh]. rewrite !sumL_map. cbn. rewrite Hy. reflexivity.
Qed.
