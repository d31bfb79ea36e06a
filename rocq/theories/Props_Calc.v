(* Props_Calc.v : property theorems C01, C02, C03, C04 and C08: forward_laplacian against the partial derivatives of the traced function. *)
From Coq Require Import Reals Lra QArith.
From Coquelicot Require Import Coquelicot.
From Verif Require Export TotalCalc.
Set Implicit Arguments.
Open Scope nat_scope.
Local Notation fwd c2r := (forward_laplacian (prim_reg c2r) (name_reg c2r) c2r).

(* C01's conclusion in plain words: rs are the values of F at xs, the rows of their dense Jacobians are the partial derivatives of F in the flat input
   coordinates and their Laplacians are the sums of the second partial derivatives. *)
Definition exact (F : list (nd R) -> option (list (nd R))) (xs : list (nd R)) (rs : list (arg R)) : Prop :=
  let n := total (map (@sh R) xs) in
  exists ys, F xs = Some ys /\ length ys = length rs /\ forall m, m < length rs -> let r := nth m rs (AX nd0) in
    sh (aval r) = sh (nth m ys nd0) /\ forall p, inb p (sh (nth m ys nd0)) -> at_ (aval r) p = at_ (nth m ys nd0) p /\
      exists h, (forall i, i < n -> let phi := fun t => out_at F m p (move xs i t) in is_derive phi 0%R (jac_row r i p) /\ is_derive_n phi 2 0%R (h i)) /\ lap_of r p = sumn n h.
Lemma exact_ones F xs wt rs : (forall i, i < total (map (@sh R) xs) -> wt i = 1%R) -> exact_at F xs wt rs -> exact F xs rs.
Proof.
  intros H1 (ys & E & L & H). exists ys. split; [exact E|]. split; [exact L|]. intros m Hm. destruct (H m Hm) as [Hs HP]. cbv zeta. split; [exact Hs|]. intros p Hp. destruct (HP p Hp) as (V & d & h & D & J & A). split; [exact V|]. exists h. split.
  - intros i Hi. rewrite (J i Hi), (H1 i Hi). rewrite Rmult_1_l. apply (D i Hi). rewrite (H1 i Hi). apply R1_neq_R0.
  - rewrite A. apply (@sumn_ext R). intros i Hi. rewrite (H1 i Hi), !Rmult_1_l. reflexivity.
Qed.
Lemma ones_ok xs : wts_ok (ones xs) xs.
Proof.
  split; [unfold ones; apply map_length|]. intros k Hk. unfold ones. rewrite nth_map_in with (dx := nd0) by exact Hk. cbn [sh]. apply bto_nil.
Qed.
Lemma ones_weight xs i : i < total (map (@sh R) xs) -> coord_weight (ones xs) xs i = 1%R.
Proof.
  intros Hi. destruct (coord_surj _ Hi) as (k & p & Hk & Hp & <-). destruct (ones_ok xs) as [HL HB]. rewrite map_length in Hk. rewrite nth_map_in with (dx := nd0) in Hp by exact Hk.
  unfold coord_weight. rewrite <- (@lw_shapes R (ones xs) xs HL). rewrite (@nth_ravel R 0%R nd0) by (rewrite ?lw_length by exact HL; rewrite ?(@lw_nth R CRing_R (ones xs) xs k HL Hk); auto).
  rewrite (@lw_nth R CRing_R (ones xs) xs k HL Hk). unfold ones. rewrite nth_map_in with (dx := nd0) by exact Hk. reflexivity.
Qed.
Lemma seeds_ok ws xs : wts_ok ws xs -> valid (total (map (@sh R) xs)) (dfull (total (map (@sh R) xs))) (seeds false ws xs).
Proof.
  intros HW. split; [apply seeds_full; exact HW|]. intros v Hv. unfold seeds in Hv. apply in_map_iff in Hv. destruct Hv as (k & <- & Hk). apply in_seq in Hk. destruct (@seed_ok R CRing_R ws xs false k HW ltac:(lia)) as (_ & S2 & S3 & _). split; assumption.
Qed.
Lemma seeds_vals sparse ws xs : map (@aval R) (seeds sparse ws xs) = xs.
Proof. unfold seeds. rewrite map_map. cbn [aval seed lx]. apply map_seq_id. Qed.

Lemma const_true {X Y} (l : list X) (m : list Y) : length l = length m -> map (fun _ => true) l = map (fun _ => true) m.
Proof. revert m. induction l as [|x l IH]; intros [|y m] H; try discriminate; [reflexivity|]. cbn. f_equal. apply IH. injection H as H. exact H. Qed.
Lemma seeds_flags sparse ws xs : map (@is_al R) (seeds sparse ws xs) = map (fun _ => true) xs.
Proof. unfold seeds. rewrite map_map. cbn [is_al]. apply const_true. apply seq_length. Qed.
(* ---- C03 and C01, dense mode: for every program over the modelled primitives (jitted calls, scans, custom_jvp calls and unregistered primitives
   included, nested to any depth), every point at which the primitives it executes are twice differentiable (smooth_run: a condition on ordinary
   evaluation of the program), every input shapes and weights. ---- *)
Theorem C03_weights_rescale_coordinates : forall (c2r : bool) (t : Q) (j : @jaxpr R prim) (ws xs : list (nd R)) (rs : list (arg R)),
  (t <= 0)%Q -> 0 < total (map (@sh R) xs) -> wts_ok ws xs -> smallj j -> smooth_run j true xs ->
  fwd c2r t j ws (map (@AX R) xs) = Some rs -> exact_at (plain_run j true) xs (coord_weight ws xs) rs.
Proof.
  intros c2r t j ws xs rs Ht Hn HW HS HR H. apply (@forward_dense c2r t j ws xs rs Ht Hn HW HS); [|exact H].
  apply (@smooth_regular c2r (th_of t (map (@AX R) xs)) _ Hn j _ (@seeds_ok ws xs HW)). rewrite seeds_vals. exact HR.
Qed.
Print Assumptions C03_weights_rescale_coordinates.
Theorem C01_forward_laplacian_is_exact : forall (c2r : bool) (t : Q) (j : @jaxpr R prim) (xs : list (nd R)) (rs : list (arg R)),
  (t <= 0)%Q -> 0 < total (map (@sh R) xs) -> smallj j -> smooth_run j true xs ->
  fwd c2r t j (ones xs) (map (@AX R) xs) = Some rs -> exact (plain_run j true) xs rs.
Proof.
  intros c2r t j xs rs Ht Hn HS HR H. apply (@exact_ones _ xs (coord_weight (ones xs) xs)); [apply ones_weight|]. exact (@C03_weights_rescale_coordinates c2r t j (ones xs) xs rs Ht Hn (ones_ok xs) HS HR H).
Qed.
Print Assumptions C01_forward_laplacian_is_exact.
(* and there is a result: in dense mode forward_laplacian returns on every program that runs on plain arrays, unless a scan has a carry that starts as a plain array and
   becomes dependent on the input or runs over arrays that depend on the input: such scans are rejected (interpreter.py:94-96, 112-113).  [dep_run]: data flow through the program
   text (DepCalc.v); [typed_run]: smooth_run with scans whose carry keeps its shapes, as JAX requires. *)
Theorem C01_dense_mode_returns : forall (c2r : bool) (t : Q) (j : @jaxpr R prim) (ws xs ys : list (nd R)),
  (t <= 0)%Q -> 0 < total (map (@sh R) xs) -> wts_ok ws xs -> smallj j -> typed_run j true xs -> plain_run j true xs = Some ys -> dep_run j true (map (fun _ => true) xs) <> None ->
  exists rs, fwd c2r t j ws (map (@AX R) xs) = Some rs /\ map (@aval R) rs = ys /\ exact_at (plain_run j true) xs (coord_weight ws xs) rs.
Proof.
  intros c2r t j ws xs ys Ht Hn HW HS HR HP HDR.
  assert (HX : exists rs, fwd c2r t j ws (map (@AX R) xs) = Some rs /\ jrun (prim_reg c2r) (name_reg c2r) c2r false (th_of t (map (@AX R) xs)) j true (seeds false ws xs) = Some rs).
  { unfold forward_laplacian. cbv zeta. change (threshold_of t (map (fun v => prod (sh (aval v))) (map (@AX R) xs))) with (th_of t (map (@AX R) xs)).
    pose proof (@th_neg t (map (@AX R) xs) Ht) as Hth. destruct (Z.ltb_spec 0 (th_of t (map (@AX R) xs))) as [Hx|_]; [lia|]. rewrite init_plain, jrun_frees_nothing by exact HS.
    destruct (@program_total c2r (th_of t (map (@AX R) xs)) _ Hn j (seeds false ws xs) ys (@seeds_ok ws xs HW)) as (rs & HX); [rewrite seeds_vals; exact HR|rewrite seeds_vals; exact HP|rewrite seeds_flags; exact HDR|]. exists rs. auto. }
  destruct HX as (rs & H1 & H2). exists rs. split; [exact H1|]. pose proof (typed_smooth _ _ HR) as HR'. split; [|exact (@C03_weights_rescale_coordinates c2r t j ws xs rs Ht Hn HW HS HR' H1)].
  assert (HS0 : smooth_run j true (map (@aval R) (seeds false ws xs))) by (rewrite seeds_vals; exact HR').
  destruct (@dense_good c2r (th_of t (map (@AX R) xs)) _ Hn j _ (@seeds_ok ws xs HW) HS0) as [_ HG]. destruct (HG rs H2) as [HV _]. rewrite seeds_vals, HP in HV. injection HV as HV. congruence.
Qed.
Print Assumptions C01_dense_mode_returns.
(* without scans there is nothing to check *)
Theorem C01_dense_mode_returns_without_scans : forall (c2r : bool) (t : Q) (j : @jaxpr R prim) (ws xs ys : list (nd R)),
  (t <= 0)%Q -> 0 < total (map (@sh R) xs) -> wts_ok ws xs -> smallj j -> smooth_noscan j true xs -> plain_run j true xs = Some ys ->
  exists rs, fwd c2r t j ws (map (@AX R) xs) = Some rs /\ map (@aval R) rs = ys /\ exact_at (plain_run j true) xs (coord_weight ws xs) rs.
Proof. intros c2r t j ws xs ys Ht Hn HW HS HR HP. apply (@C01_dense_mode_returns c2r t j ws xs ys Ht Hn HW HS (noscan_typed _ _ HR) HP (@noscan_dep j xs ys HR HP)). Qed.
Print Assumptions C01_dense_mode_returns_without_scans.
(* ---- C08 in dense mode: every dense_array has one row per input coordinate. ---- *)
Theorem C08_one_row_per_input_partial : forall (c2r : bool) (t : Q) (j : @jaxpr R prim) (ws xs : list (nd R)) (rs : list (arg R)),
  (t <= 0)%Q -> 0 < total (map (@sh R) xs) -> wts_ok ws xs -> smallj j -> smooth_run j true xs ->
  fwd c2r t j ws (map (@AX R) xs) = Some rs -> forall a, In (AL a) rs -> exists J, dense_array (ljac a) = Some J /\ sh J = total (map (@sh R) xs) :: sh (lx a).
Proof.
  intros c2r t j ws xs rs Ht Hn HW HS HR H. apply (@forward_dense c2r t j ws xs rs Ht Hn HW HS); [|exact H].
  apply (@smooth_regular c2r (th_of t (map (@AX R) xs)) _ Hn j _ (@seeds_ok ws xs HW)). rewrite seeds_vals. exact HR.
Qed.
Print Assumptions C08_one_row_per_input_partial.
(* ---- C02 and C03 in sparse mode: the same derivatives for every threshold, as long as no equation mixes sparse and dense Jacobians in a way that
   the rules get wrong (regular_mix; what is missing is exactly what C02_sparsity_changes_the_result_refuted shows). ---- *)
Theorem C02_every_threshold_is_exact_partial : forall (c2r : bool) (t : Q) (j : @jaxpr R prim) (ws xs : list (nd R)) (rs : list (arg R)),
  let th := th_of t (map (@AX R) xs) in let n := total (map (@sh R) xs) in
  0 < n -> wts_ok ws xs -> smallj j -> regular_mix c2r th n j (seeds (0 <? th)%Z ws xs) ->
  fwd c2r t j ws (map (@AX R) xs) = Some rs -> exact_at (plain_run j true) xs (coord_weight ws xs) rs.
Proof. intros c2r t j ws xs rs. apply (@forward_mixed c2r t j ws xs rs). Qed.
Print Assumptions C02_every_threshold_is_exact_partial.
(* hence: the results for threshold t and for threshold 0 agree *)
Theorem C02_sparse_agrees_with_dense_partial : forall (c2r : bool) (t : Q) (j : @jaxpr R prim) (ws xs : list (nd R)) (rs rs0 : list (arg R)),
  let th := th_of t (map (@AX R) xs) in let n := total (map (@sh R) xs) in
  0 < n -> wts_ok ws xs -> smallj j -> regular_mix c2r th n j (seeds (0 <? th)%Z ws xs) -> smooth_run j true xs ->
  fwd c2r t j ws (map (@AX R) xs) = Some rs -> fwd c2r 0%Q j ws (map (@AX R) xs) = Some rs0 ->
  length rs = length rs0 /\ forall m, m < length rs -> let r := nth m rs (AX nd0) in let r' := nth m rs0 (AX nd0) in sh (aval r) = sh (aval r') /\
    forall p, inb p (sh (aval r)) -> at_ (aval r) p = at_ (aval r') p /\ (forall i, i < n -> jac_row r i p = jac_row r' i p) /\ lap_of r p = lap_of r' p.
Proof.
  intros c2r t j ws xs rs rs0 th n Hn HW HS HM HR H H0. apply (@exact_unique (plain_run j true) xs (coord_weight ws xs)).
  - exact (@C02_every_threshold_is_exact_partial c2r t j ws xs rs Hn HW HS HM H).
  - refine (@C03_weights_rescale_coordinates c2r 0%Q j ws xs rs0 _ Hn HW HS HR H0). apply Qle_refl.
Qed.
Print Assumptions C02_sparse_agrees_with_dense_partial.

(* ---- C04 ---- *)
Theorem C04_composition_dense : forall (c2r : bool) (t t2 th3 : Q) (f g h : @jaxpr R prim) (ws ws2 xs : list (nd R)) (rs rs2 rs3 : list (arg R)),
  (t <= 0)%Q -> (th3 <= 0)%Q -> 0 < total (map (@sh R) xs) -> wts_ok ws xs -> smallj f -> smallj g -> smallj h -> (forall ys, plain_run h true ys = then_ f g ys) ->
  smooth_run f true xs -> (forall ys, plain_run f true xs = Some ys -> smooth_run g true ys) -> smooth_run h true xs ->
  fwd c2r t f ws (map (@AX R) xs) = Some rs -> existsb (@is_al R) rs = true -> fwd c2r t2 g ws2 rs = Some rs2 -> fwd c2r th3 h ws (map (@AX R) xs) = Some rs3 ->
  length rs2 = length rs3 /\ forall m, m < length rs2 -> let r := nth m rs2 (AX nd0) in let r' := nth m rs3 (AX nd0) in sh (aval r) = sh (aval r') /\
    forall p, inb p (sh (aval r)) -> at_ (aval r) p = at_ (aval r') p /\ (forall i, i < total (map (@sh R) xs) -> jac_row r i p = jac_row r' i p) /\ lap_of r p = lap_of r' p.
Proof.
  intros c2r t t2 t3 f g h ws ws2 xs rs rs2 rs3 Ht Ht3 Hn HW Sf Sg Sh Hh Rf Rg Rh Hf He Hg H3. apply (@exact_unique (then_ f g) xs (coord_weight ws xs)).
  - assert (HR : regular c2r (th_of t (map (@AX R) xs)) f (seeds false ws xs)).
    { apply (@smooth_regular c2r (th_of t (map (@AX R) xs)) _ Hn f _ (@seeds_ok ws xs HW)). rewrite seeds_vals. exact Rf. }
    assert (HV : plain_run f true xs = Some (map (@aval R) rs) /\ valid (total (map (@sh R) xs)) (dfull (total (map (@sh R) xs))) rs).
    { pose proof Hf as Hf'. unfold forward_laplacian in Hf'. cbv zeta in Hf'. change (threshold_of t (map (fun v => prod (sh (aval v))) (map (@AX R) xs))) with (th_of t (map (@AX R) xs)) in Hf'.
      pose proof (@th_neg t (map (@AX R) xs) Ht) as Hth. destruct (Z.ltb_spec 0 (th_of t (map (@AX R) xs))) as [Hx|_]; [lia|]. rewrite init_plain in Hf'. rewrite jrun_frees_nothing in Hf' by exact Sf.
      assert (HS0 : smooth_run f true (map (@aval R) (seeds false ws xs))) by (rewrite seeds_vals; exact Rf).
      rewrite <- (seeds_vals false ws xs) at 1. apply (@dense_good c2r (th_of t (map (@AX R) xs)) _ Hn f _ (@seeds_ok ws xs HW) HS0). exact Hf'. }
    destruct HV as [HV1 HV2].
    apply (@compose_dense c2r t t2 f g ws ws2 xs rs rs2 Ht Hn HW Sf Sg HR Hf He); [|exact Hg].
    apply (@smooth_regular c2r (th_of t2 rs) _ Hn g rs HV2). apply Rg. exact HV1.
  - pose proof (@C03_weights_rescale_coordinates c2r t3 h ws xs rs3 Ht3 Hn HW Sh Rh H3) as HE.
    destruct HE as (ys & E & L & HE). exists ys. rewrite <- Hh. split; [exact E|]. split; [exact L|]. intros m Hm. destruct (HE m Hm) as [Hs HP]. split; [exact Hs|]. intros p Hp. destruct (HP p Hp) as (V & d & hh & D & J & A). split; [exact V|]. exists d, hh. split; [|split; [exact J|exact A]].
    intros i Hi Hw. specialize (D i Hi Hw). cbv zeta in *. unfold out_at in *. destruct D as [D1 D2]. split.
    + apply is_derive_ext with (2 := D1). intros s. rewrite Hh. reflexivity.
    + apply is_derive_n_ext with (2 := D2). intros s. rewrite Hh. reflexivity.
Qed.
Print Assumptions C04_composition_dense.
(* any thresholds, under the conditions of C02 *)
Theorem C04_composition_partial : forall (c2r : bool) (t t2 : Q) (f g : @jaxpr R prim) (ws ws2 xs : list (nd R)) (rs rs2 : list (arg R)),
  let th := th_of t (map (@AX R) xs) in let n := total (map (@sh R) xs) in 0 < n -> wts_ok ws xs -> smallj f -> smallj g ->
  regular_mix c2r th n f (seeds (0 <? th)%Z ws xs) -> fwd c2r t f ws (map (@AX R) xs) = Some rs ->
  existsb (@is_al R) rs = true -> regular_mix c2r (th_of t2 rs) n g rs -> fwd c2r t2 g ws2 rs = Some rs2 ->
  exact_at (then_ f g) xs (coord_weight ws xs) rs2.
Proof. exact compose_mixed. Qed.
Print Assumptions C04_composition_partial.


(* ================= examples ================= *)
Definition V (v : nat) : atom (nd R) := AVar v.
Definition pe (k : prim) (i : list (atom (nd R))) (o : nat) : @eqn R prim := Eqn (KPrim k (prim_ops k)) i [o].
Definition issome {X} (o : option X) : bool := match o with Some _ => true | None => false end.
Definition lits (s : shape) (l : list R) : nd R := Nd s (fun p => nth (ravel_ix s p) l 0%R).
Ltac small_prog := unfold smallj; repeat (first [constructor; [now (intros v Hv; vm_compute in Hv; repeat (destruct Hv as [<-|Hv]; [vm_compute; discriminate|]); destruct Hv)|]; let k := fresh "k" in let Hk := fresh "Hk" in intros k Hk; cbn [subops j_es map In kind_of pe] in Hk; repeat (destruct Hk as [<-|Hk]; [|]); [..|destruct Hk] | constructor]).
(* s = sum_i sin(x_i) x_i (the sum in a jitted function), then s * s * s * s by a scan of length 3, at x = (2, 3) *)
Definition exBody : @jaxpr R prim := Jaxpr [] [0; 1] [] [pe PMul [V 1; V 0] 2] [V 2].
Definition exSum : @jaxpr R prim := Jaxpr [] [0] [] [pe (PSum [0]) [V 0] 1] [V 1].
Definition exF : @jaxpr R prim := Jaxpr [] [0] [] [pe (PUn USin) [V 0] 1; pe PMul [V 1; V 0] 2; Eqn (KPjit 9 exSum) [V 2] [3]; Eqn (KScan 1 1 3 false exBody) [V 3; V 3] [4]] [V 4].
Definition exX : list (nd R) := [lits [2] [2; 3]%R].
Lemma exF_small : smallj exF. Proof. unfold exF, exSum, exBody. small_prog. Qed.
Ltac fits := match goal with
  | |- applies (PUn _) _ => split; [reflexivity|vm_compute; discriminate] | |- applies PMul _ => split; [reflexivity|vm_compute; discriminate] | |- applies PDiv _ => split; [reflexivity|vm_compute; discriminate]
  | |- applies (PSum _) _ => eexists; split; [reflexivity|]; split; [discriminate|]; split; [repeat constructor; intros []|]; let d := fresh in intros d [<-|[]]; vm_compute; repeat constructor
  | |- diff_at (PUn USin) _ => let p := fresh in let H := fresh in intros p H; exact I | |- diff_at _ _ => exact I
  | |- _ = _ => reflexivity | |- True => exact I | |- forall x, False -> _ => intros ? [] end.
Lemma exF_smooth : smooth_run exF true exX.
Proof. unfold exF, exX, exSum, exBody. cbn -[prim_op applies diff_at o_fwd]. repeat match goal with |- _ /\ _ => split end; fits. Qed.
Example C01_hypotheses_met : 0 < total (map (@sh R) exX) /\ smallj exF /\ smooth_run exF true exX /\ issome (fwd false 0%Q exF (ones exX) (map (@AX R) exX)) = true.
Proof. split; [vm_compute; repeat constructor|]. split; [exact exF_small|]. split; [exact exF_smooth|vm_compute; reflexivity]. Qed.
(* C03: weight 5 on the first coordinate and 0 on the second *)
Example C03_hypotheses_met : let ws := [lits [2] [5; 0]%R] in wts_ok ws exX /\ map (coord_weight ws exX) [0; 1] = [5; 0]%R /\ issome (fwd false 0%Q exF ws (map (@AX R) exX)) = true.
Proof. split; [split; [reflexivity|]; intros [|k] Hk; [apply bto_refl|cbn in Hk; lia]|]. split; vm_compute; reflexivity. Qed.
(* sum (sin (W x)), the matrix product by dot_general *)
Definition exD : dims := Dims [1] [0] [] [].
Definition exW : atom (nd R) := ALit (lits [2; 2] [1; 2; 3; 4]%R).
Definition exG : @jaxpr R prim := Jaxpr [] [0] [] [pe (PDot exD) [exW; V 0] 1; pe (PUn USin) [V 1] 2; Eqn (KPjit 9 exSum) [V 2] [3]] [V 3].
Lemma exD_fits (x y : nd R) : sh x = [2; 2] -> sh y = [2] -> dims_ok exD (sh x) (sh y).
Proof. intros -> ->. unfold dims_ok. cbn. repeat match goal with |- _ /\ _ => split end; try reflexivity; try (intros d [<-|[]]; lia); constructor; try (intros []); constructor. Qed.
Example C01_dense_mode_hypotheses_met : smallj exG /\ smooth_noscan exG true exX /\ exists ys, plain_run exG true exX = Some ys.
Proof.
  split; [unfold exG, exSum; small_prog|]. split.
  - unfold smooth_noscan, exG, exX, exSum. cbn -[prim_op applies diff_at o_fwd]. repeat match goal with |- _ /\ _ => split end; try fits. do 2 eexists. split; [reflexivity|]. apply exD_fits; reflexivity.
  - assert (E : issome (plain_run exG true exX) = true) by (vm_compute; reflexivity). destruct (plain_run exG true exX) as [ys|]; [eauto|discriminate].
Qed.

(* ---- C02 fails: f(a, b) = b / a[i] with a of shape (1,), b of shape (3,) and an index i that is traced (data-dependent indexing: the Jacobian is
   materialised, with one row), at a = 1, b = (2, 2, 2).  The Laplacian of every element is 2 b / a^3 = 4; with sparsity_threshold = 2 it comes out as 6. ---- *)
Definition wG : iop := Iop [3] (fun p => (0, [0])).
Definition wJ : @jaxpr R prim := Jaxpr [] [0; 1] [] [pe (PIndex wG false true) [V 0] 2; pe PDiv [V 1; V 2] 3] [V 3].
Definition wX : list (nd R) := [lits [1] [1]%R; lits [3] [2; 2; 2]%R].
Definition lap0 (o : option (list (arg R))) (p : ix) : option R := match o with Some [AL a] => Some (at_ (llap a) p) | _ => None end.
Theorem C02_sparsity_changes_the_result_refuted : smallj wJ /\ smooth_noscan wJ true wX /\ th_of 2%Q (map (@AX R) wX) = 2%Z /\
  lap0 (fwd false 0%Q wJ (ones wX) (map (@AX R) wX)) [0] = Some 4%R /\ lap0 (fwd false 2%Q wJ (ones wX) (map (@AX R) wX)) [0] = Some 6%R.
Proof.
  split; [unfold wJ; small_prog|]. split; [|split; [vm_compute; reflexivity|split]].
  - unfold smooth_noscan, wJ, wX. cbn -[prim_op applies diff_at o_fwd]. repeat match goal with |- _ /\ _ => split end; try fits.
    + intros p Hp. cbn. split; [lia|]. repeat constructor.
    + intros q Hq. cbn. lra.
  - vm_compute. f_equal. field.
  - vm_compute. f_equal. field.
Qed.
Print Assumptions C02_sparsity_changes_the_result_refuted.

(* ---- C08 fails in sparse mode: f(x) = x[0:1] at x = (2, 3) with sparsity_threshold = 1: dense_array has one row, there are two inputs. ---- *)
Definition hJ : @jaxpr R prim := Jaxpr [] [0] [] [pe (PIndex (Iop [1] (fun p => (0, p))) true false) [V 0] 1] [V 1].
Definition rows0 (o : option (list (arg R))) : option shape := match o with Some [AL a] => option_map (@sh R) (dense_array (ljac a)) | _ => None end.
Theorem C08_sparse_rows_refuted : smallj hJ /\ smooth_noscan hJ true exX /\ total (map (@sh R) exX) = 2 /\
  rows0 (fwd false 1%Q hJ (ones exX) (map (@AX R) exX)) = Some [1; 1] /\ rows0 (fwd false 0%Q hJ (ones exX) (map (@AX R) exX)) = Some [2; 1].
Proof.
  split; [unfold hJ; small_prog|]. split; [|split; [vm_compute; reflexivity|split; vm_compute; reflexivity]].
  unfold smooth_noscan, hJ, exX. cbn -[prim_op applies diff_at o_fwd]. repeat match goal with |- _ /\ _ => split end; try fits.
  intros p Hp. cbn in *. split; [lia|]. inversion Hp as [|? ? ? ? H1 H2]; subst. inversion H2; subst. constructor; [lia|constructor].
Qed.
Print Assumptions C08_sparse_rows_refuted.
