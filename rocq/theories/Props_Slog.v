(* Props_Slog.v : property theorems C22: slogdet against the derivatives of log|det|. *)
From Coq Require Import Reals Lra QArith.
From Coquelicot Require Import Coquelicot.
From Verif Require Export Props_Calc.
Set Implicit Arguments.
Open Scope nat_scope.
Local Notation fwd c2r := (forward_laplacian (prim_reg c2r) (name_reg c2r) c2r).

(* ---- the specification: det is the expansion along the first row (Det.v), matat x p is the m x m matrix stored at leading index p. ---- *)
(* slogdet_wrapper uses the two-sided inverse, which is unique *)
Theorem C22_inverse : forall (x : nd R) (L : shape) (m : nat) (p : ix), sh x = L ++ [m; m] -> inb p L -> det m (fun i j => at_ x (p ++ [i; j])) <> 0%R ->
  let A i j := at_ x (p ++ [i; j]) in let N i j := at_ (mat_inv x) (p ++ [i; j]) in
  (forall i j, i < m -> j < m -> sumn m (fun k => (A i k * N k j)%R) = if i =? j then 1%R else 0%R) /\
  (forall i j, i < m -> j < m -> sumn m (fun k => (N i k * A k j)%R) = if i =? j then 1%R else 0%R) /\
  (forall X : nat -> nat -> R, (forall i j, i < m -> j < m -> sumn m (fun k => (X i k * A k j)%R) = if i =? j then 1%R else 0%R) -> forall i j, i < m -> j < m -> X i j = N i j).
Proof.
  intros x L m p Hs Hp Hd A N. fold A in Hd.
  assert (EA : forall i j, i < m -> j < m -> matat x p i j = A i j) by (intros i j Hi Hj; apply (@matat_in x L m p i j Hs Hp Hi Hj)).
  assert (EN : forall i j, i < m -> j < m -> N i j = minv m A i j).
  { intros i j Hi Hj. unfold N. transitivity (minv m (matat x p) i j); [exact (@inv_at x L m p i j Hs)|]. apply minv_ext; auto. }
  split; [|split].
  - intros i j Hi Hj. transitivity (mmul m A (minv m A) i j); [|apply (@minv_right m A i j Hd Hi Hj)]. unfold mmul. apply (@sumn_ext R). intros k Hk. rewrite (EN k j Hk Hj). reflexivity.
  - intros i j Hi Hj. transitivity (mmul m (minv m A) A i j); [|apply (@minv_left m A i j Hd Hi Hj)]. unfold mmul. apply (@sumn_ext R). intros k Hk. rewrite (EN i k Hi Hk). reflexivity.
  - intros X HX i j Hi Hj. rewrite (EN i j Hi Hj). apply (@minv_unique m A X i j Hd Hi Hj). intros i' j' Hi' Hj'. exact (HX i' j' Hi' Hj').
Qed.
Print Assumptions C22_inverse.

(* ---- C22: the entries of the matrices are functions of t along n curves w 0, ..., w (n-1) (the n input coordinates), differentiable around t = 0, and the
   argument carries their first derivatives and the sum of their second derivatives, sparse or dense.  If no determinant vanishes, the rule for slogdet returns
   the sign as a plain array, and log|det| with its value, its derivatives along the curves and the sum of its second derivatives. ---- *)
Definition curve_data (n : nat) (a : lapl R) (w : nat -> R -> nd R) : Prop :=
  (forall i, i < n -> locally 0%R (fun t => sh (w i t) = sh (lx a))) /\
  exists h, (forall i p, i < n -> inb p (sh (lx a)) -> jet2 (fun t => at_ (w i t) p) (at_ (lx a) p) (jent (ljac a) i p) (h i p)) /\
  forall p, inb p (sh (lx a)) -> at_ (llap a) p = sumn n (fun i => h i p).
Theorem C22_slogdet_is_the_derivative : forall (n : nat) (complex_to_real : bool) (threshold : Z) (a : lapl R) (w : nat -> R -> nd R) (L : shape) (m : nat) (r : arg R * arg R),
  0 < n -> awf n a -> jrow1 (ljac a) -> curve_data n a w -> sh (lx a) = L ++ [m; m] -> (forall p, inb p L -> det m (fun i j => at_ (lx a) (p ++ [i; j])) <> 0%R) ->
  slogdet_wrapper sign_det log_absdet mat_inv complex_to_real threshold (AL a) = Some r ->
  (exists s, fst r = AX s /\ sh s = L /\ forall p, inb p L -> at_ s p = sign (det m (fun i j => at_ (lx a) (p ++ [i; j])))) /\
  exists b, snd r = AL b /\ sh (lx b) = L /\ forall p, inb p L -> let phi i t := ln (Rabs (det m (fun s u => at_ (w i t) (p ++ [s; u])))) in
    at_ (lx b) p = ln (Rabs (det m (fun i j => at_ (lx a) (p ++ [i; j])))) /\
    exists h, (forall i, i < n -> is_derive (phi i) 0%R (jent (ljac b) i p) /\ is_derive_n (phi i) 2 0%R (h i)) /\ at_ (llap b) p = sumn n h.
Proof.
  intros n c2r th a w L m r Hn Hw Hr (C1 & h & C2 & C3) Hs Hd H.
  assert (HT : tracks n [AL a] (fun i t => [w i t])).
  { exists w, (fun _ _ => []). split; [intros i Hi; apply near_all; reflexivity|]. split; [|intros i Hi; apply near_all; reflexivity]. split; [exact Hw|]. split; [exact Hr|]. exists h. split; [|exact C3].
    intros i Hi. split; [apply C1; exact Hi|]. intros p Hp. apply C2; auto. }
  assert (HQ : square [lx a]) by (exists (lx a), L, m; auto).
  assert (EL : lead (lx a) = L) by (apply (@lead_of R (lx a) L m Hs)). assert (EM : msize (lx a) = m) by (apply (@msize_of (lx a) L m Hs)).
  assert (ED : forall y p, sh y = L ++ [m; m] -> inb p L -> det m (matat y p) = det m (fun i j => at_ y (p ++ [i; j]))) by (intros y p Hy Hp; apply det_ext; intros i j Hi Hj; apply (@matat_in y L m p i j Hy Hp Hi Hj)).
  assert (HR : nonsingular [lx a]) by (intros p Hp; cbn [nth] in *; rewrite EL in Hp; rewrite EM, (ED _ _ Hs Hp); apply Hd; exact Hp).
  destruct (@slogdet_sound R _ sign_det log_absdet mat_inv n c2r th a L m r Hn (conj Hw Hr) Hs inv_ext1 (fun x Hx => Hx) H) as (E1 & b & E2 & E3 & E4).
  split.
  - exists (sign_det (lx a)). split; [exact E1|]. split; [exact EL|]. intros p Hp. cbn [sign_det at_]. rewrite EM, (ED _ _ Hs Hp). reflexivity.
  - exists b. split; [exact E2|]. pose proof (@out_track R _ _ n op_detlog [AL a] _ b HT E3 E4 (detlog_smooth HQ HR)) as (_ & _ & g & T1 & T2).
    destruct E3 as (V1 & _). assert (SB : sh (lx b) = L) by (rewrite V1; exact EL). split; [exact SB|]. intros p Hp phi. split.
    + rewrite V1. cbn [map aval op_detlog op_logdet o_fwd nth at_ log_absdet]. rewrite EM, (ED _ _ Hs Hp). reflexivity.
    + exists (fun i => g i p). split; [|apply T2; rewrite SB; exact Hp]. intros i Hi. destruct (T1 i Hi) as [_ T3]. specialize (T3 p). rewrite SB in T3. specialize (T3 Hp).
      assert (J : jet2 (phi i) (at_ (lx b) p) (jent (ljac b) i p) (g i p)).
      { apply jet2_ext with (2 := T3). generalize (C1 i Hi). apply filter_imp. intros t Ht. cbn [op_detlog op_logdet o_fwd nth at_ log_absdet]. rewrite Hs in Ht. rewrite (@msize_of _ L m Ht), (ED _ _ Ht Hp). reflexivity. }
      exact (jet2_derive J).
Qed.
Print Assumptions C22_slogdet_is_the_derivative.

(* ================= examples ================= *)
(* log|det x| of a 2 x 2 matrix; slogdet is called as the jitted function of that name (registered, wrapped_functions.py:441) *)
Definition slBody : @jaxpr R prim := Jaxpr [] [0] [] [Eqn (KCustom [op_detsign; op_detlog]) [V 0] [1; 2]] [V 1; V 2].
Definition slF : @jaxpr R prim := Jaxpr [] [0] [] [Eqn (KPjit 5 slBody) [V 0] [1; 2]] [V 2].
Definition slX : list (nd R) := [lits [2; 2] [2; 1; 1; 3]%R].
Lemma slF_smooth : smooth_noscan slF true slX.
Proof.
  unfold smooth_noscan, slF, slBody, slX. cbn -[prim_op applies diff_at o_fwd]. split; [|exact I].
  split; [|split; [|split; [|exact I]]].
  - intros ys Hy. destruct ys as [|y [|? ?]]; try discriminate. reflexivity.
  - exists (lits [2; 2] [2; 1; 1; 3]%R), [], 2. split; reflexivity.
  - intros p Hp. cbn in Hp. inversion Hp; subst. vm_compute. lra.
Qed.
Definition lap_at (o : option (list (arg R))) : R := match o with Some (AL a :: _) => at_ (llap a) [] | _ => 0%R end.
Example C22_derivative_hypotheses_met : smallj slF /\ smooth_noscan slF true slX /\ (exists ys, plain_run slF true slX = Some ys) /\ issome (fwd false 0%Q slF (ones slX) (map (@AX R) slX)) = true /\
  lap_at (fwd false 0%Q slF (ones slX) (map (@AX R) slX)) = (-3/5)%R.
Proof.
  split; [unfold slF, slBody; small_prog|]. split; [exact slF_smooth|]. split; [eexists; reflexivity|]. split; [vm_compute; reflexivity|]. vm_compute. field.
Qed.
