(* Props_Reg.v : C48, the registry.  Every function of wrapped_functions.py:297-442 is registered with annotations (flags, in_axes, custom Hessian rule) under which its
   rule returns exact derivatives. *)
From Coq Require Import Reals Lra.
From Coquelicot Require Import Coquelicot.
From Verif Require Export RegOps TotalCalc.
Set Implicit Arguments.
Open Scope nat_scope.

(* ---- specification ---- *)
(* the registered real functions, each with the arguments at which it is twice differentiable.  One constructor per group of wrapped_functions.py:297-442. *)
Inductive registered : prim -> list (nd R) -> Prop :=
| rg_linear l xs : arity_ok (lin_ar l) xs -> ew_dom (lin_dom l) xs -> registered (PLin l) xs                  (* neg, add, sub; abs away from 0; max, min away from ties *)
| rg_unary u xs : arity_ok 1 xs -> ew_dom (fun v => un_dom u (v0 v)) xs -> registered (PUn u) xs              (* sqrt ... tan, integer_pow, sigmoid, softplus, silu *)
| rg_mul xs : arity_ok 2 xs -> registered PMul xs
| rg_div xs : arity_ok 2 xs -> (forall q, inb q (sh (nth 1 xs nd0)) -> at_ (nth 1 xs nd0) q <> 0%R) -> registered PDiv xs
| rg_binary b xs : arity_ok 2 xs -> ew_dom (bin_dom b) xs -> registered (PBin b) xs                           (* pow of positive numbers, logaddexp *)
| rg_atan2 xs : arity_ok 2 xs -> ew_dom (fun v => (0 < v1 v \/ v0 v <> 0)%R) xs -> registered atan2 xs        (* off the branch cut *)
| rg_sum axes x : CalcPrims.axes_ok axes [x] -> registered (PSum axes) [x]
| rg_prod axes x : CalcPrims.axes_ok axes [x] -> registered (reduce_prod axes) [x]
| rg_max axes x : CalcPrims.axes_ok axes [x] -> (forall p, inb p (red_shape axes [sh x]) -> one_extreme 1 (elems [x] (red_grp axes [sh x] p))) -> registered (reduce_max axes) [x]       (* the maximum is attained once *)
| rg_min axes x : CalcPrims.axes_ok axes [x] -> (forall p, inb p (red_shape axes [sh x]) -> one_extreme (-1) (elems [x] (red_grp axes [sh x] p))) -> registered (reduce_min axes) [x]
| rg_cumsum d reverse x : d < ndim x -> registered (cumsum d reverse) [x]
| rg_index g ok filled xs : iop_wf g (map (@sh R) xs) -> registered (PIndex g ok filled) xs                   (* broadcast_in_dim, reshape, slice, dynamic_slice, concatenate, select_n, gather, transpose, squeeze, rev *)
| rg_scatter_add tgt x i u : registered (scatter_add tgt) [x; i; u]
| rg_scatter_max tgt x i u : (forall p, inb p (sh x) -> one_extreme 1 (elems [x; i; u] (scat_grp tgt [sh x; sh i; sh u] p))) -> registered (scatter_max tgt) [x; i; u]
| rg_scatter_min tgt x i u : (forall p, inb p (sh x) -> one_extreme (-1) (elems [x; i; u] (scat_grp tgt [sh x; sh i; sh u] p))) -> registered (scatter_min tgt) [x; i; u]
| rg_dot D xs : dot_fits D xs -> registered (PDot D) xs
| rg_slogdet xs : square xs -> nonsingular xs -> registered PSlogdet xs
| rg_cross c x : cross_in c x -> registered (PCplx (CCross c)) [x]                                            (* real, imag, conj, convert_element_type between floating types *)
| rg_abs x : iscx x -> (forall p, inb p (sh (join2 x)) -> at_ (join2 x) p <> (0, 0)%R) -> registered (PCplx CAbs) [x]   (* the modulus *)
(* complex arrays: real arrays with a trailing axis (re, im); the functions act on [join2] of them *)
| rg_complex_linear l xs : (forall x, In x xs -> iscx x) -> length xs = clin_ar l -> bshapes (map (@sh (R * R)) (map join2 xs)) <> None -> registered (PCplx (CKern (KLin l))) xs   (* neg, add, sub *)
| rg_complex_mul xs : (forall x, In x xs -> iscx x) -> length xs = 2 -> bshapes (map (@sh (R * R)) (map join2 xs)) <> None -> registered (PCplx (CKern KMul)) xs
| rg_complex_div x y : iscx x -> iscx y -> bshapes [sh (join2 x); sh (join2 y)] <> None -> (forall q, inb q (sh (join2 y)) -> at_ (join2 y) q <> (0, 0)%R) -> registered (PCplx (CKern KDiv)) [x; y]
| rg_complex_fun m e xs : (forall x, In x xs -> iscx x) -> length xs = m -> bshapes (map (@sh (R * R)) (map join2 xs)) <> None -> cvars m e = true -> ew_dom (cdom e) (map join2 xs) -> registered (PCplx (CKern (KFun m e))) xs   (* holomorphic functions, off their branch cuts and poles *)
| rg_complex_sum axes x : iscx x -> axes <> [] -> NoDup axes -> (forall d, In d axes -> d < ndim (join2 x)) -> registered (PCplx (CKern (KSum axes))) [x]
| rg_complex_prod axes x : iscx x -> axes <> [] -> NoDup axes -> (forall d, In d axes -> d < ndim (join2 x)) -> registered (complex_reduce_prod axes) [x]
| rg_complex_cumsum d reverse x : iscx x -> d < ndim (join2 x) -> registered (complex_cumsum d reverse) [x]
| rg_complex_index g ok filled xs : (forall x, In x xs -> iscx x) -> iop_wf g (map (@sh (R * R)) (map join2 xs)) -> registered (PCplx (CKern (KIndex g ok filled))) xs
| rg_complex_dot D xs : (forall x, In x xs -> iscx x) -> dot_fits D (map join2 xs) -> registered (PCplx (CKern (KDot D))) xs
| rg_scatter g ok filled dims_ok ids xs : iop_wf g (map (@sh R) xs) -> registered (PScatter g ok filled dims_ok ids) xs                  (* scatter: an index map over (operand, indices, updates) *)
| rg_complex_scatter g ok filled dims_ok ids xs : (forall x, In x xs -> iscx x) -> iop_wf g (map (@sh (R * R)) (map join2 xs)) -> registered (PCplx (CKern (KScatter g ok filled dims_ok ids))) xs
| rg_complex_slogdet xs : cx_square xs -> cx_nonsingular xs -> registered PSlogC xs.                          (* phase and log|det| of complex matrices *)

(* an array with Jacobian and Laplacian (AL) or a plain array (AX), along n curves w 0, ..., w (n-1) (the n input coordinates) *)
Definition along_curves (n : nat) (v : arg R) (w : nat -> R -> nd R) : Prop :=
  match v with
  | AX x => forall i, i < n -> locally 0%R (fun t => eqa x (w i t))
  | AL a => awf n a /\ jrow1 (ljac a) /\ (forall i, i < n -> locally 0%R (fun t => sh (w i t) = sh (lx a))) /\
      exists h : nat -> ix -> R, (forall i p, i < n -> inb p (sh (lx a)) -> jet2 (fun t => at_ (w i t) p) (at_ (lx a) p) (jent (ljac a) i p) (h i p)) /\
      forall p, inb p (sh (lx a)) -> at_ (llap a) p = sumn n (fun i => h i p)
  end.
(* [r] is the exact result of the function F on arguments W that move along the curves: value, first derivative along each curve, and sum of the second derivatives *)
Definition exact_result (n : nat) (F : list (nd R) -> nd R) (xs : list (nd R)) (W : list (nat -> R -> nd R)) (r : arg R) : Prop :=
  aval r = F xs /\ forall p, inb p (sh (F xs)) -> let phi i t := at_ (F (map (fun w => w i t) W)) p in
  match r with
  | AL b => exists h : nat -> R, (forall i, i < n -> phi i 0%R = at_ (lx b) p /\ is_derive (phi i) 0%R (jent (ljac b) i p) /\ is_derive_n (phi i) 2 0%R (h i)) /\ at_ (llap b) p = sumn n h
  | AX y => forall i, i < n -> locally 0%R (fun t => phi i t = at_ y p)
  end.

(* ---- the registered functions fit the model's primitives, and are differentiable ---- *)
Theorem C48_registered_functions_differentiable : forall (k : prim) (xs : list (nd R)), registered k xs -> applies k xs /\ diff_at k xs.
Proof.
  intros k xs H. destruct H; cbn [applies diff_at].
  - split; assumption.
  - split; assumption.
  - split; [assumption|exact I].
  - split; assumption.
  - split; assumption.
  - split; [apply H|]. intros p Hp. apply atan2_smooth; [unfold ew_vals; rewrite map_length; apply H|apply H0; exact Hp].
  - split; [assumption|exact I].
  - destruct H as (y & E & H1 & H2 & H3). injection E as <-. pose proof (@red_wf axes (sh x) H2 H3) as HW. split; [split; [exists x; auto|apply gop_fwd_ext; exact HW]|].
    split; [apply gop_reduces; assumption|]. split; [apply gop_op_ext; exact HW|]. apply gop_smooth; [exact HW|]. intros p _. apply prodl_smooth.
  - destruct H as (y & E & H1 & H2 & H3). injection E as <-. pose proof (@red_wf axes (sh x) H2 H3) as HW. split; [split; [exists x; auto|apply gop_fwd_ext; exact HW]|].
    split; [apply gop_reduces; assumption|]. split; [apply gop_linear; reflexivity|]. apply gop_smooth; [exact HW|]. intros p Hp. apply max_smooth. exact (H0 p Hp).
  - destruct H as (y & E & H1 & H2 & H3). injection E as <-. pose proof (@red_wf axes (sh x) H2 H3) as HW. split; [split; [exists x; auto|apply gop_fwd_ext; exact HW]|].
    split; [apply gop_reduces; assumption|]. split; [apply gop_linear; reflexivity|]. apply gop_smooth; [exact HW|]. intros p Hp. apply min_smooth. exact (H0 p Hp).
  - pose proof (@cum_wf d reverse (sh x) H) as HW. split; [apply gop_fwd_ext; exact HW|]. split; [apply gop_linear; reflexivity|]. apply gop_smooth; [exact HW|]. intros p Hp. apply suml_smooth.
  - split; [assumption|exact I].
  - pose proof (@scat_wf tgt (sh x) (sh i) (sh u)) as HW. split; [apply gop_fwd_ext; exact HW|]. split; [apply gop_linear; reflexivity|]. apply gop_smooth; [exact HW|]. intros p Hp. apply suml_smooth.
  - pose proof (@scat_wf tgt (sh x) (sh i) (sh u)) as HW. split; [apply gop_fwd_ext; exact HW|]. split; [apply gop_linear; reflexivity|]. apply gop_smooth; [exact HW|]. intros p Hp. apply max_smooth. exact (H p Hp).
  - pose proof (@scat_wf tgt (sh x) (sh i) (sh u)) as HW. split; [apply gop_fwd_ext; exact HW|]. split; [apply gop_linear; reflexivity|]. apply gop_smooth; [exact HW|]. intros p Hp. apply min_smooth. exact (H p Hp).
  - split; [assumption|exact I].
  - split; assumption.
  - split; [exists x; auto|exact I].
  - split; [exists x; auto|assumption].
  - split; [split; [assumption|split; [rewrite map_length; assumption|assumption]]|exact I].
  - split; [split; [assumption|split; [rewrite map_length; assumption|assumption]]|exact I].
  - split; [split; [intros z [<-|[<-|[]]]; assumption|split; [reflexivity|assumption]]|assumption].
  - split; [split; [assumption|split; [split; [rewrite map_length; assumption|assumption]|assumption]]|assumption].
  - split; [split; [intros z [<-|[]]; assumption|exists (join2 x); auto]|exact I].
  - pose proof (@red_wf axes (sh (join2 x)) H1 H2) as HW. split; [split; [intros z [<-|[]]; assumption|split; [exists (join2 x); auto|apply gop_fwd_ext; exact HW]]|].
    split; [apply gop_reduces; assumption|]. split; [apply gop_op_ext; exact HW|]. apply gop_smooth; [exact HW|]. intros p _. apply prodl_smooth.
  - pose proof (@cum_wf d reverse (sh (join2 x)) H0) as HW. split; [split; [intros z [<-|[]]; assumption|apply gop_fwd_ext; exact HW]|]. split; [apply gop_linear; reflexivity|]. apply gop_smooth; [exact HW|]. intros p Hp. apply suml_smooth.
  - split; [split; assumption|exact I].
  - split; [split; assumption|exact I].
  - split; [assumption|exact I].
  - split; [split; assumption|exact I].
  - split; assumption.
Qed.
Print Assumptions C48_registered_functions_differentiable.

Lemma ac_track n v w : along_curves n v w -> track n v w.
Proof.
  destruct v as [a|x]; [|exact (fun H => H)]. intros (H1 & H2 & H3 & h & H4 & H5). split; [exact H1|]. split; [exact H2|]. exists h. split; [|exact H5]. intros i Hi. split; [apply H3; exact Hi|]. intros p Hp. exact (H4 i p Hi Hp).
Qed.
Lemma ac_tracks n vs : forall W, Forall2 (along_curves n) vs W -> tracks n vs (fun i t => map (fun w => w i t) W).
Proof.
  induction vs as [|v vs IH]; intros W H; inversion H; subst; [intros i Hi; apply near_all; reflexivity|]. apply (@tracks_cons _ _ _ n v vs y (fun i t => map (fun w => w i t) l')); [apply ac_track; assumption|apply IH; assumption].
Qed.
Lemma ac_vok n v w : along_curves n v w -> vok n v.
Proof. destruct v as [a|x]; [|exact (fun _ => I)]. intros (H1 & H2 & _). split; assumption. Qed.
Lemma acs_vok n vs W : Forall2 (along_curves n) vs W -> forall v, In v vs -> vok n v.
Proof. intros HA. induction HA as [|v w l m Hv HA IH]; intros u Hu; [destruct Hu|]. destruct Hu as [<-|Hu]; [exact (@ac_vok n v w Hv)|auto]. Qed.
Lemma good_exact n fs args W outs : tracks n args (fun i t => map (fun w => w i t) W) -> prim_good n fs args outs -> Forall2 (fun f r => exact_result n (o_fwd f) (map (@aval R) args) W r) fs outs.
Proof.
  intros HT H. induction H as [|f o fs outs Ho H IH]; constructor; [|exact IH]. destruct o as [b|y].
  - destruct Ho as (O1 & O2 & O3). split; [apply O1|]. intros p Hp phi. destruct (@out_track R CRing_R _ n f args _ b HT O1 O2 O3) as (_ & _ & g & T1 & T2). assert (Ep : sh (lx b) = sh (o_fwd f (map (@aval R) args))) by (f_equal; apply O1).
    rewrite <- Ep in Hp. exists (fun i => g i p). split; [|apply T2; exact Hp]. intros i Hi. destruct (T1 i Hi) as [_ T3]. specialize (T3 p Hp). split; [exact (proj1 T3)|]. exact (jet2_derive T3).
  - destruct Ho as [-> O2]. split; [reflexivity|]. intros p Hp phi i Hi. destruct (tracks_curves _ _ _ HT) as (h & K1 & K2). generalize (O2 _ _ _ (K1 i Hi)). apply filter_imp. intros t [_ E]. unfold phi. symmetry. apply E. exact Hp.
Qed.
(* ---- C48: the rule of every registered function is exact, in any sparsity layout the rule supports (mix_at: C13, C16, C17, C21, C24; true of dense Jacobians) ---- *)
Theorem C48_registered_rules_exact : forall (n : nat) (k : prim) (complex_to_real : bool) (threshold : Z) (rule : lrule) (args : list (arg R)) (W : list (nat -> R -> nd R)) (rs : list (arg R)),
  let xs := map (@aval R) args in
  0 < n -> prim_reg complex_to_real k = Some rule -> registered k xs -> Forall2 (along_curves n) args W -> als args <> [] -> mix_at threshold n k args -> rule threshold args = Some rs ->
  Forall2 (fun f r => exact_result n (o_fwd f) xs W r) (prim_ops k) rs.
Proof.
  intros n k c2r th rule args W rs xs Hn HR HG HA Hne HM H. destruct (C48_registered_functions_differentiable HG) as [H1 H2]. apply good_exact; [exact (ac_tracks HA)|].
  apply (@prim_ok n c2r th k args rs Hn (acs_vok HA) Hne); [split; [reflexivity|]; split; [exact H1|]; intros _; split; assumption|]. unfold eval_prim. rewrite HR. exact H.
Qed.
Print Assumptions C48_registered_rules_exact.
(* dense Jacobians: the rule returns, and no condition is left *)
Theorem C48_registered_rules_dense : forall (n : nat) (k : prim) (complex_to_real : bool) (threshold : Z) (rule : lrule) (args : list (arg R)) (W : list (nat -> R -> nd R)),
  let xs := map (@aval R) args in
  0 < n -> prim_reg complex_to_real k = Some rule -> registered k xs -> Forall2 (along_curves n) args W -> als args <> [] -> Forall (@dense_arg R) args ->
  exists rs, rule threshold args = Some rs /\ Forall2 (fun f r => exact_result n (o_fwd f) xs W r) (prim_ops k) rs.
Proof.
  intros n k c2r th rule args W xs Hn HR HG HA Hne HD. destruct (C48_registered_functions_differentiable HG) as [H1 H2].
  destruct (@prim_total n c2r th k args Hn (acs_vok HA) HD Hne H1 H2) as (rs & E). unfold eval_prim in E. rewrite HR in E. exists rs. split; [exact E|].
  exact (@C48_registered_rules_exact n k c2r th rule args W rs Hn HR HG HA Hne (@mix_dense th n k args HD) E).
Qed.
Print Assumptions C48_registered_rules_dense.
(* all of them have a rule *)
Theorem C48_all_registered : forall (k : prim) (xs : list (nd R)) (complex_to_real : bool), registered k xs -> exists rule, prim_reg complex_to_real k = Some rule.
Proof. intros k xs c2r H. destruct H; eexists; reflexivity. Qed.
Print Assumptions C48_all_registered.

(* ---- C28: the functions registered under a name.  Specification: the number of arguments and the elementwise formula of jax.nn.sigmoid, jax.nn.softplus, jax.nn.silu and
   jax.numpy.logaddexp (wrapped_functions.py:437-440) ---- *)
Definition named (name : nat) : option (nat * (list R -> R)) :=
  match name with
  | 0 => Some (1, (fun v => / (1 + exp (- v0 v)))%R)
  | 1 => Some (1, (fun v => ln (1 + exp (v0 v)))%R)
  | 2 => Some (1, (fun v => v0 v * / (1 + exp (- v0 v)))%R)
  | 3 => Some (2, (fun v => ln (exp (v0 v) + exp (v1 v)))%R)
  | _ => None
  end.
(* specification: a formula applied at every position, with broadcasting *)
Definition pointwise (g : list R -> R) (xs : list (nd R)) : nd R := Nd (match bshapes (map (@sh R) xs) with Some s => s | None => [] end) (fun p => g (map (fun x => at_ x (bproj (sh x) p)) xs)).
Theorem C28_registered_names_exact : forall (n name m : nat) (g : list R -> R) (complex_to_real : bool) (threshold : Z) (rule : lrule) (args : list (arg R)) (W : list (nat -> R -> nd R)) (rs : list (arg R)),
  let xs := map (@aval R) args in
  0 < n -> named name = Some (m, g) -> name_reg complex_to_real name = Some rule -> length xs = m -> bshapes (map (@sh R) xs) <> None -> Forall2 (along_curves n) args W -> als args <> [] ->
  (m = 1 \/ Forall (@dense_arg R) args) -> rule threshold args = Some rs -> exists r, rs = [r] /\ exact_result n (pointwise g) xs W r.
Proof.
  intros n name m g c2r th rule args W rs xs Hn HN HR HL HB HA Hne HM H.
  assert (HG : exists k, name_prim name = Some k /\ registered k xs /\ mix_at th n k args /\ prim_ops k = [prim_op k] /\ o_fwd (prim_op k) = pointwise g).
  { destruct name as [|[|[|[|name]]]]; try discriminate HN; injection HN as <- <-.
    all: eexists; (split; [reflexivity|]); (split; [|split; [|split; [reflexivity|reflexivity]]]); try exact I; try (constructor; [split; assumption|intros p _; exact I]).
    destruct HM as [HM|HM]; [discriminate|]. apply (@mix_dense th n (PBin BLogaddexp) args HM). }
  destruct HG as (k & E1 & E2 & E3 & E4 & E5). unfold name_reg in HR. rewrite E1 in HR.
  pose proof (@C48_registered_rules_exact n k c2r th rule args W rs Hn HR E2 HA Hne E3 H) as K. rewrite E4 in K. inversion K as [|f r fs l K1 K2]; subst. inversion K2; subst. exists r. split; [reflexivity|]. rewrite E5 in K1. exact K1.
Qed.
(* the name sign: the values of jax.lax.sign, without derivatives *)
Theorem C28_registered_sign : forall (complex_to_real : bool) (threshold : Z) (rule : lrule) (x : arg R), name_reg complex_to_real 4 = Some rule -> 
  exists y, rule threshold [x] = Some [AX y] /\ sh y = sh (aval x) /\ forall p, at_ y p = sign (at_ (aval x) p).
Proof. intros c2r th rule x [= <-]. eexists. split; [reflexivity|]. split; reflexivity. Qed.
Print Assumptions C28_registered_names_exact.
Print Assumptions C28_registered_sign.

(* ---- examples: the array (1, 3, 2), each element an input coordinate ---- *)
Definition exr : nd R := Nd [3] (fun p => nth (nth 0 p 0) [1; 3; 2]%R 0%R).
Definition exR : lapl R := Lapl exr (Jac (Nd [3; 3] (fun p => if Nat.eqb (nth 0 p 0) (nth 1 p 0) then 1%R else 0%R)) None) (Nd [3] (fun _ => 0%R)).
Definition exRw (i : nat) (t : R) : nd R := Nd [3] (fun p => (nth (nth 0%nat p 0%nat) [1; 3; 2] 0 + t * (if Nat.eqb i (nth 0%nat p 0%nat) then 1 else 0))%R).
Lemma exR_along : along_curves 3 (AL exR) exRw.
Proof.
  split; [split; [exists 3; split; [reflexivity|cbn; lia]|reflexivity]|]. split; [intros X; discriminate X|]. split; [intros; apply near_all; reflexivity|]. exists (fun _ _ => 0%R). split.
  - intros i p Hi Hp. change (inb p [3]) in Hp. inversion Hp as [|m ? l ? Hm Hp']; subst. inversion Hp'; subst. 
    change (jet2 (fun t => (nth m [1; 3; 2] 0 + t * (if Nat.eqb i m then 1 else 0))%R) (nth m [1; 3; 2]%R 0%R) (if (i <? 3)%nat then if Nat.eqb i m then 1%R else 0%R else 0%R) 0%R). replace (i <? 3)%nat with true by (symmetry; apply Nat.ltb_lt; exact Hi).
    eapply jet2_ext; [|exact (jet2_line (nth m [1; 3; 2]%R 0%R) (if Nat.eqb i m then 1%R else 0%R))]. apply near_all. intros t. cbv beta. reflexivity.
  - intros p _. cbn. unfold sumn. cbn. ring.
Qed.
Lemma exr_axes : CalcPrims.axes_ok [0] [exr].
Proof. exists exr. split; [reflexivity|]. split; [discriminate|]. split; [repeat constructor; intros []|]. intros d [<-|[]]. cbn. lia. Qed.
Lemma exr_at0 p : inb p (red_shape [0] [sh exr]) -> p = [].
Proof. intros H. change (inb p []) in H. inversion H. reflexivity. Qed.
Example C48_hypotheses_met : Forall2 (along_curves 3) [AL exR] [exRw] /\ als [AL exR] <> [] /\ Forall (@dense_arg R) [AL exR] /\
  registered (reduce_max [0]) [exr] /\ registered (reduce_min [0]) [exr] /\ registered (reduce_prod [0]) [exr] /\ registered (cumsum 0 true) [exr] /\ registered atan2 [exr; exr] /\ registered (scatter_max (fun _ => Some [0])) [exr; exr; Nd [] (fun _ => 7%R)].
Proof.
  split; [constructor; [exact exR_along|constructor]|]. split; [discriminate|]. split; [repeat constructor|].
  split; [constructor; [exact exr_axes|]|]. { intros p Hp. apply exr_at0 in Hp as ->. change (elems _ _) with [1; 3; 2]%R. exists 1. split; [cbn; lia|]. intros [|[|[|j]]] Hj N; cbn in *; try lia; lra. }
  split; [constructor; [exact exr_axes|]|]. { intros p Hp. apply exr_at0 in Hp as ->. change (elems _ _) with [1; 3; 2]%R. exists 0. split; [cbn; lia|]. intros [|[|[|j]]] Hj N; cbn in *; try lia; lra. }
  split; [constructor; exact exr_axes|]. split; [constructor; cbn; lia|]. split; [constructor; [split; [reflexivity|vm_compute; discriminate]|]|].
  { intros p Hp. change (inb p [3]) in Hp. inversion Hp as [|m ? l ? Hm Hp']; subst. inversion Hp'; subst. left. destruct m as [|[|[|m]]]; [| | |lia]; vm_compute; lra. }
  constructor. intros p Hp. change (inb p [3]) in Hp. inversion Hp as [|m ? l ? Hm Hp']; subst. inversion Hp'; subst. destruct m as [|[|[|m]]]; [| | |lia].
  - change (elems _ _) with [1; 7]%R. exists 1. split; [cbn; lia|]. intros [|[|j]] Hj N; cbn in *; try lia; lra.
  - change (elems _ _) with [3]%R. exists 0. split; [cbn; lia|]. intros [|j] Hj N; cbn in *; lia.
  - change (elems _ _) with [2]%R. exists 0. split; [cbn; lia|]. intros [|j] Hj N; cbn in *; lia.
Qed.
(* scatter, and slogdet of the complex matrix [[2 + i, 1], [i, 3]] *)
Definition exc : nd R := Nd [2; 2; 2] (fun p => match p with [0; 0; 0] => 2 | [0; 0; _] => 1 | [0; 1; 0] => 1 | [1; 0; 1] => 1 | [1; 1; 0] => 3 | _ => 0 end)%R.
Definition exs : iop := Iop [3] (fun p => match p with [1] => (2, []) | _ => (0, p) end).
Example C48_hypotheses_met_complex : registered PSlogC [exc] /\ registered (PScatter exs true true true []) [exr; exr; Nd [] (fun _ => 7%R)].
Proof.
  split.
  - constructor.
    + exists exc, [], 2. split; reflexivity.
    + intros p Hp. change (inb p []) in Hp. inversion Hp; subst. cbn. cc. intros [=]. lra.
  - constructor. intros p Hp. change (inb p [3]) in Hp. inversion Hp as [|m ? l ? Hm Hp']; subst. inversion Hp'; subst. destruct m as [|[|[|m]]]; [| | |lia]; split; cbn; try lia; repeat constructor; lia.
Qed.
(* softplus of that array, and logaddexp of it with itself *)
Example C28_names_hypotheses_met : (exists rule rs, name_reg false 1 = Some rule /\ rule 0%Z [AL exR] = Some rs) /\ length [exr] = 1 /\ bshapes (map (@sh R) [exr]) <> None /\ Forall2 (along_curves 3) [AL exR] [exRw] /\
  (exists rule rs, name_reg false 3 = Some rule /\ rule 0%Z [AL exR; AL exR] = Some rs) /\ Forall (@dense_arg R) [AL exR; AL exR] /\ bshapes (map (@sh R) [exr; exr]) <> None.
Proof.
  assert (H : forall r : option (list (arg R)), match r with Some _ => True | None => False end -> exists rs, r = Some rs) by (intros [r|] H; [eauto|destruct H]).
  split. { eexists. destruct (H (one (wrap_fl (un_rule USoftplus) false 0%Z [AL exR]))) as (rs & E); [vm_compute; exact I|]. exists rs. split; [reflexivity|exact E]. }
  split; [reflexivity|]. split; [vm_compute; discriminate|]. split; [constructor; [exact exR_along|constructor]|].
  split. { eexists. destruct (H (one (wrap_fl (ew_rule (bin_f BLogaddexp) (bin_1 BLogaddexp) (bin_2 BLogaddexp) 0%Z None) false 0%Z [AL exR; AL exR]))) as (rs & E); [vm_compute; exact I|]. exists rs. split; [reflexivity|exact E]. }
  split; [repeat constructor|vm_compute; discriminate].
Qed.
