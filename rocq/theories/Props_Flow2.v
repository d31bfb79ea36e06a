(* Props_Flow2.v : C08 and C36 for programs with regular data flow (Flow.v), at every sparsity threshold. *)
From Coq Require Import Reals Lra QArith.
From Coquelicot Require Import Coquelicot.
From Verif Require Export Props_Flow Operators.
Set Implicit Arguments.
Open Scope nat_scope.
Local Notation fwd c2r := (forward_laplacian (prim_reg c2r) (name_reg c2r) c2r).

(* ---- C08: the dense Jacobian of every result exists and has at most one row per input ---- *)
Theorem C08_flow_rows_at_most_inputs : forall (c2r : bool) (t : Q) (j : @jaxpr R prim) (ws xs : list (nd R)) (rs : list (arg R)),
  0 < total (map (@sh R) xs) -> wts_ok ws xs -> smallj j -> typed_complex j -> flow_run j true (inputs_flow xs) -> fwd c2r t j ws (map (@AX R) xs) = Some rs ->
  forall a, In (AL a) rs -> (exists p, inb p (sh (lx a))) -> exists J k, dense_array (ljac a) = Some J /\ sh J = k :: sh (lx a) /\ k <= total (map (@sh R) xs).
Proof.
  intros c2r t j ws xs rs Hn HW HS HM HR H a Ha (p & Hp). destruct (@forward_flow c2r t j ws xs rs Hn HW HS HM HR H) as (_ & _ & HA). destruct (HA a Ha) as ((HJ & _) & H1).
  destruct (@dense_array_spec0 R CRing_R (ljac a) _ _ (jwf_jwf0 HJ)) as (D & K & E1 & E2 & E3 & _).
  - unfold nonempty. destruct (jidx (ljac a)) as [m|] eqn:Em; [|exact I]. destruct HJ as (k & Sk & Hk). rewrite Em in Hk. destruct Hk as [Sm _]. unfold jrow1, weak in H1. rewrite Em, (rows_cons _ Sk) in H1. specialize (H1 eq_refl).
    exists (0 :: p). rewrite Sm. apply inb_cons. split; [lia|exact Hp].
  - exact Hn.
  - exists D, K. auto.
Qed.
Print Assumptions C08_flow_rows_at_most_inputs.

(* ---- C36: the Forward operator, with any threshold, and the Loop operator agree up to the summation of the Loop operator's vector; rows that the Forward operator's
   Jacobian does not have are zeros of the gradient ---- *)
Theorem C36_forward_loop_flow_partial : forall (c2r : bool) (t : Q) (j : @jaxpr R prim) (x : nd R) (l D : nd R),
  0 < prod (sh x) -> smallj j -> typed_complex j -> flow_run j true (inputs_flow [x]) -> (forall ys, plain_run j true [x] = Some ys -> map (@sh R) ys = [[]]) ->
  forward_op c2r t j x = Some (l, D) ->
  let n := prod (sh x) in let (ll, g) := loop_op (fun y => out_at (plain_run j true) 0 [] [y]) x in
  sh ll = [n] /\ at_ l [] = sumn n (fun i => at_ ll [i]) /\ sh g = [n] /\
  exists k, k <= n /\ sh D = [k] /\ (forall i, i < k -> at_ D [i] = at_ g [i]) /\ forall i, k <= i < n -> at_ g [i] = 0%R.
Proof.
  intros c2r t j x l D Hn HS HM HR Hsc H.
  assert (Hn' : 0 < total (map (@sh R) [x])) by (unfold total; cbn; rewrite Nat.add_0_r; exact Hn).
  assert (Hnn : total (map (@sh R) [x]) = prod (sh x)) by (unfold total; cbn; rewrite Nat.add_0_r; reflexivity).
  assert (HE : forall rs, fwd c2r t j (ones [x]) [AX x] = Some rs -> exact (plain_run j true) [x] rs).
  { intros rs E. apply (@exact_ones _ [x] (coord_weight (ones [x]) [x])); [apply ones_weight|]. exact (@C02_flow_programs_exact_partial c2r t j (ones [x]) [x] rs Hn' (ones_ok [x]) HS HM HR E). }
  apply (@forward_loop_any c2r t j x l D Hn Hsc H HE).
  intros a J EF EJ. destruct (HE [AL a] EF) as (ys & EY & EL & HX'). specialize (Hsc ys EY). destruct ys as [|y [|y' ys]]; try discriminate Hsc. cbn in Hsc. injection Hsc as Sy.
  destruct (HX' 0 ltac:(cbn; lia)) as [S0 _]. cbn [nth aval] in S0. rewrite Sy in S0.
  destruct (@C08_flow_rows_at_most_inputs c2r t j (ones [x]) [x] [AL a] Hn' (ones_ok [x]) HS HM HR EF a (or_introl eq_refl)) as (J' & k & EJ' & SJ & Hk); [exists []; rewrite S0; constructor|].
  rewrite EJ in EJ'. injection EJ' as <-. exists k. rewrite Hnn in Hk. auto.
Qed.
Print Assumptions C36_forward_loop_flow_partial.
(* f(x) = log|det x| + sum (sin x) for a 2 x 2 matrix: outside the static programs of C36_forward_loop_sparse_partial, since slogdet has its own rule *)
Definition flH : @jaxpr R prim := Jaxpr [] [0] []
  [Eqn (KPjit 5 slBody) [V 0] [1; 2]; pe (PUn USin) [V 0] 3; pe (PSum [0; 1]) [V 3] 4; pe (PLin LAdd) [V 2; V 4] 5; pe PMul [V 2; V 4] 6] [V 5].
Lemma flH_flow : flow_run flH true (inputs_flow slX).
Proof. exact flF_flow. Qed.
Example C36_flow_hypotheses_met : 0 < prod (sh (hd nd0 slX)) /\ smallj flH /\ typed_complex flH /\ flow_run flH true (inputs_flow [hd nd0 slX]) /\
  option_map (map (@sh R)) (plain_run flH true [hd nd0 slX]) = Some [[]] /\ th_of 9%Q (map (@AX R) slX) = 9%Z /\
  option_map (fun r => (sh (fst r), sh (snd r))) (forward_op false 9%Q flH (hd nd0 slX)) = Some ([], [4]).
Proof.
  split; [vm_compute; lia|]. split; [unfold flH, slBody; small_prog|]. split; [vm_compute; discriminate|]. split; [exact flH_flow|]. split; [vm_compute; reflexivity|]. split; vm_compute; reflexivity.
Qed.
(* ---- the condition regular_mix of C02_every_threshold_is_exact_partial and C02_sparse_agrees_with_dense_partial (Props_Calc.v), which speaks of the Jacobians met while the
   program runs, holds at every threshold and for all weights whenever the data flow is regular; so it is met by flF, with sparse and dense Jacobians ---- *)
Lemma flow_regular c2r (t : Q) j ws xs : 0 < total (map (@sh R) xs) -> wts_ok ws xs -> typed_complex j -> flow_run j true (inputs_flow xs) ->
  regular_mix c2r (th_of t (map (@AX R) xs)) (total (map (@sh R) xs)) j (seeds (0 <? th_of t (map (@AX R) xs))%Z ws xs).
Proof.
  intros Hn HW HM HR. unfold typed_complex in HM. destruct (mk_run j true _) as [ms'|] eqn:Em; [|congruence]. set (th := th_of t (map (@AX R) xs)).
  refine (proj1 (@flow_good c2r th _ Hn j _ ms' _ (map (fun _ => LT) (seeds (0 <? th)%Z ws xs)) (mokw_falses (j_ivs j) _) Em (@seeds_flow th ws xs HW) _)). rewrite zip_seeds. exact HR.
Qed.
Example C02_regular_mix_hypotheses_met : forall c2r t, 0 < total (map (@sh R) slX) /\ wts_ok (ones slX) slX /\ smallj flF /\
  regular_mix c2r (th_of t (map (@AX R) slX)) (total (map (@sh R) slX)) flF (seeds (0 <? th_of t (map (@AX R) slX))%Z (ones slX) slX).
Proof.
  intros c2r t. destruct C02_flow_hypotheses_met as (H1 & H2 & H3 & H4 & H5 & _). repeat (split; [assumption|]). apply flow_regular; assumption.
Qed.
