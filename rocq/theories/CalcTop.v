(* CalcTop.v : forward_laplacian against the partial derivatives of the traced function. *)
From Coq Require Import Reals Lra QArith Qround FunctionalExtensionality Classical_Prop.
From Coquelicot Require Import Coquelicot.
From Verif Require Export LayoutCalc DenseRows FwdLapl.
Set Implicit Arguments.
Open Scope nat_scope.
Local Open Scope R_scope.

(* ================= specification ================= *)
(* the input point xs (a list of arrays) with flat coordinate i increased by s *)
Definition move (xs : list (nd R)) (i : nat) (s : R) : list (nd R) :=
  map (fun k => let x := nth k xs nd0 in Nd (sh x) (fun p => at_ x p + (if Nat.eqb (coord (map (@sh R) xs) k p) i then s else 0))) (seq 0 (length xs)).
(* entry p of output m of F at xs *)
Definition out_at (F : list (nd R) -> option (list (nd R))) (m : nat) (p : ix) (xs : list (nd R)) : R := match F xs with Some ys => at_ (nth m ys nd0) p | None => 0 end.
(* row i of the dense Jacobian of r, rows beyond the stored ones being zero; a plain array has no Jacobian *)
Definition jac_row (r : arg R) (i : nat) (p : ix) : R :=
  match r with AX _ => 0 | AL a => match dense_array (ljac a) with Some J => if (i <? rows J)%nat then at_ J (i :: p) else 0 | None => 0 end end.
(* specification: Laplacian of a result *)
Definition lap_of (r : arg R) (p : ix) : R := match r with AX _ => 0 | AL a => at_ (llap a) p end.
(* rs are the values, weighted first partial derivatives and weighted sums of second partial derivatives of F at xs:
   Jacobian row i = wt i * dF/dx_i and Laplacian = sum_i (wt i)^2 * d2F/dx_i^2.  (Where wt i = 0 nothing is claimed about dF/dx_i.) *)
Definition exact_at (F : list (nd R) -> option (list (nd R))) (xs : list (nd R)) (wt : nat -> R) (rs : list (arg R)) : Prop :=
  let n := total (map (@sh R) xs) in
  exists ys, F xs = Some ys /\ length ys = length rs /\ forall m, (m < length rs)%nat -> let r := nth m rs (AX nd0) in
    sh (aval r) = sh (nth m ys nd0) /\ forall p, inb p (sh (nth m ys nd0)) -> at_ (aval r) p = at_ (nth m ys nd0) p /\
      exists d h, (forall i, (i < n)%nat -> wt i <> 0 -> let phi := fun t => out_at F m p (move xs i t) in is_derive phi 0 (d i) /\ is_derive_n phi 2 0 (h i)) /\
        (forall i, (i < n)%nat -> jac_row r i p = wt i * d i) /\ lap_of r p = sumn n (fun i => wt i * wt i * h i).
(* the weight of flat coordinate i *)
Definition coord_weight (ws xs : list (nd R)) (i : nat) : R := nth i (ravel (leaf_weights ws xs)) 0.
(* specification: unit weights *)
Definition ones (xs : list (nd R)) : list (nd R) := map (fun _ => Nd [] (fun _ => 1)) xs.

(* ================= lemmas ================= *)
Lemma jet2_derive phi v d h : jet2 phi v d h -> is_derive phi 0 d /\ is_derive_n phi 2 0 h.
Proof.
  intros (_ & phi' & H1 & H2 & H3). split.
  - rewrite <- H2. apply (locally_singleton _ _ H1).
  - unfold is_derive_n. cbn [Derive_n]. apply is_derive_ext_loc with (f := phi'); [|exact H3]. revert H1. apply filter_imp. intros t Ht. symmetry. apply is_derive_unique. exact Ht.
Qed.
Lemma map_seq_id {X} (d : X) (l : list X) : map (fun k => nth k l d) (seq 0 (length l)) = l.
Proof. induction l as [|x l IH]; [reflexivity|]. cbn [length seq map nth]. f_equal. rewrite <- seq_shift, map_map. exact IH. Qed.
Lemma move_0 xs i : move xs i 0 = xs.
Proof.
  unfold move. etransitivity; [|apply (map_seq_id nd0)]. apply map_ext. intros k. cbv zeta. destruct (nth k xs nd0) as [s f]. cbn [sh at_]. f_equal. apply functional_extensionality. intros p. destruct (Nat.eqb _ i); ring.
Qed.
Lemma seed_tracks sparse ws xs : wts_ok ws xs -> tracks (total (map (@sh R) xs)) (seeds sparse ws xs) (fun i t => move xs i (t * coord_weight ws xs i)).
Proof.
  intros HW. unfold seeds, move. assert (H : forall ks, (forall k, In k ks -> (k < length xs)%nat) -> tracks (total (map (@sh R) xs)) (map (fun k => AL (seed sparse ws xs k)) ks)
     (fun i t => map (fun k => let x := nth k xs nd0 in Nd (sh x) (fun p => at_ x p + (if Nat.eqb (coord (map (@sh R) xs) k p) i then t * coord_weight ws xs i else 0))) ks)).
  { induction ks as [|k ks IH]; intros Hk; [intros i _; apply near_all; reflexivity|]. cbn [map].
    apply tracks_cons; [|apply IH; intros a Ha; apply Hk; right; exact Ha].
    assert (Hk0 : (k < length xs)%nat) by (apply Hk; left; reflexivity). destruct (@seed_ok R CRing_R ws xs sparse k HW Hk0) as (S1 & S2 & S3 & _ & _ & S6 & S7).
    split; [exact S2|]. split; [exact S3|]. exists (fun _ _ => 0). split.
    - intros i Hi. rewrite S1. split; [apply near_all; reflexivity|]. intros p Hp. cbn [at_]. rewrite (S7 i p Hp). rewrite (Nat.eqb_sym i).
      destruct (Nat.eqb_spec (coord (map (@sh R) xs) k p) i) as [E|E].
      + assert (Ew : coord_weight ws xs i = weight ws k p).
        { unfold coord_weight. rewrite <- E. destruct HW as [HL HB]. rewrite <- (@lw_shapes R ws xs HL). rewrite (@nth_ravel R 0 nd0) by (rewrite ?lw_length by exact HL; rewrite ?(@lw_nth R CRing_R ws xs k HL Hk0); auto). rewrite (@lw_nth R CRing_R ws xs k HL Hk0). reflexivity. }
        rewrite Ew. apply jet2_line.
      + eapply jet2_eq; [apply jet2_const|ring|reflexivity|reflexivity].
    - intros p Hp. rewrite S1 in Hp. rewrite (S6 p Hp). symmetry. apply (@sumn_zero R CRing_R). reflexivity. }
  apply H. intros k Hk. apply in_seq in Hk. lia.
Qed.
Lemma jac_row_spec n r p i : (0 < n)%nat -> vok n r -> inb p (sh (aval r)) -> (i < n)%nat -> jac_row r i p = vjac r i p.
Proof.
  intros Hn Hv Hp Hi. destruct r as [a|x]; [|reflexivity]. destruct Hv as [[HJ _] HR]. cbn [aval] in Hp.
  assert (HN : nonempty (ljac a)).
  { unfold nonempty. destruct HJ as (k & E1 & E2). unfold jrow1, weak in HR. destruct (jidx (ljac a)) as [m|]; [|exact I]. destruct E2 as [E2 _]. specialize (HR eq_refl). unfold rows in HR. rewrite E1 in HR. cbn in HR. exists (0%nat :: p). rewrite E2. constructor; [lia|exact Hp]. }
  destruct (@dense_array_spec0 R CRing_R (ljac a) n (sh (lx a)) (jwf_jwf0 HJ) HN Hn) as (D & K & ED & ES & EK & H1 & H2). unfold jac_row. rewrite ED. unfold rows. rewrite ES. cbn [hd vjac].
  destruct (Nat.ltb_spec i K) as [H|H]; [apply H1; auto|symmetry; apply H2; auto].
Qed.
(* rs tracks F along the weighted coordinate lines: rs is exact *)
Lemma tracks_exact F xs (wt : nat -> R) rs P : (0 < total (map (@sh R) xs))%nat ->
  (forall i, (i < total (map (@sh R) xs))%nat -> near (fun t => F (move xs i (t * wt i)) = Some (P i t))) -> tracks (total (map (@sh R) xs)) rs P -> exact_at F xs wt rs.
Proof.
  set (n := total (map (@sh R) xs)). intros Hn HP HT. unfold exact_at. cbv zeta. fold n.
  pose proof (near_at (HP 0%nat Hn)) as E0. cbv beta in E0. rewrite Rmult_0_l, move_0 in E0. exists (P 0%nat 0). split; [exact E0|].
  pose proof (near_at (@tracks_length R _ _ n rs P 0%nat HT Hn)) as HL. cbv beta in HL. split; [exact HL|].
  intros m Hm. pose proof (@tracks_nth R _ _ n rs P m HT Hm) as Hm1. set (r := nth m rs (AX nd0)) in *. destruct (track_jets _ _ _ Hm1) as (h & K1 & K2).
  assert (Hs : sh (aval r) = sh (nth m (P 0%nat 0) nd0)).
  { destruct (K1 0%nat Hn) as [K _]. pose proof (near_at K) as K0. cbv beta in K0. symmetry. exact K0. }
  split; [exact Hs|]. intros p Hp. rewrite <- Hs in Hp. split.
  { destruct (K1 0%nat Hn) as [_ K]. destruct (K p Hp) as [K0 _]. symmetry. exact K0. }
  assert (Hv : vok n r). { destruct r as [a|x]; [|exact I]. destruct Hm1 as (A1 & A2 & _). split; auto. }
  (* the jets of t |-> F (move xs i t) where the weight is not zero *)
  assert (HJ : forall i, (i < n)%nat -> wt i <> 0 -> jet2 (fun t => out_at F m p (move xs i t)) (at_ (aval r) p) (/ wt i * vjac r i p) (/ wt i * / wt i * h i p)).
  { intros i Hi Hw. destruct (K1 i Hi) as [_ K]. pose proof (jet2_rescale (/ wt i) (K p Hp)) as KJ. apply jet2_ext with (2 := KJ).
    assert (HN : locally 0 (fun t => F (move xs i (t * / wt i * wt i)) = Some (P i (t * / wt i)))).
    { assert (Hc : continuous (fun t => t * / wt i) 0) by (apply (@continuous_mult R_UniformSpace R_AbsRing); [apply continuous_id|apply continuous_const]).
      apply (Hc (fun t => F (move xs i (t * wt i)) = Some (P i t))). cbv beta. rewrite Rmult_0_l. apply (HP i Hi). }
    revert HN. apply filter_imp. intros t Ht. unfold out_at. rewrite Rmult_assoc, Rinv_l, Rmult_1_r in Ht by exact Hw. rewrite Ht. reflexivity. }
  assert (HZ : forall i, (i < n)%nat -> wt i = 0 -> vjac r i p = 0 /\ h i p = 0).
  { intros i Hi Hw. destruct (K1 i Hi) as [_ K]. specialize (K p Hp). specialize (HP i Hi). rewrite Hw in HP.
    assert (HC : jet2 (fun t => at_ (nth m (P i t) nd0) p) (at_ (nth m (P i 0) nd0) p) 0 0).
    { apply jet2_ext with (phi := fun _ => at_ (nth m (P i 0) nd0) p); [|apply jet2_const]. pose proof (near_at HP) as HP0. cbv beta in HP0. revert HP. apply near_imp. intros t Ht. rewrite Rmult_0_r in Ht. rewrite Rmult_0_r in HP0. rewrite HP0 in Ht. injection Ht as <-. reflexivity. }
    destruct (jet2_unique K HC) as (_ & U1 & U2). auto. }
  exists (fun i => / wt i * vjac r i p), (fun i => / wt i * / wt i * h i p). split; [|split].
  - intros i Hi Hw. apply (jet2_derive (HJ i Hi Hw)).
  - intros i Hi. rewrite (@jac_row_spec n r p i Hn Hv Hp Hi). destruct (Req_dec (wt i) 0) as [Hw|Hw]; [|field; exact Hw]. rewrite (proj1 (HZ i Hi Hw)). ring.
  - replace (lap_of r p) with (vlap r p) by (destruct r; reflexivity). rewrite (K2 p Hp). apply (@sumn_ext R). intros i Hi. destruct (Req_dec (wt i) 0) as [Hw|Hw]; [|field; exact Hw]. rewrite (proj2 (HZ i Hi Hw)). ring.
Qed.
(* the triple is determined by the function *)
Lemma exact_unique F xs wt rs rs' : exact_at F xs wt rs -> exact_at F xs wt rs' -> length rs = length rs' /\ forall m, (m < length rs)%nat ->
  let r := nth m rs (AX nd0) in let r' := nth m rs' (AX nd0) in sh (aval r) = sh (aval r') /\ forall p, inb p (sh (aval r)) -> at_ (aval r) p = at_ (aval r') p /\
    (forall i, (i < total (map (@sh R) xs))%nat -> jac_row r i p = jac_row r' i p) /\ lap_of r p = lap_of r' p.
Proof.
  intros (ys & E1 & L1 & H1) (ys' & E2 & L2 & H2). rewrite E1 in E2. injection E2 as <-. split; [congruence|]. intros m Hm. cbv zeta in *. destruct (H1 m Hm) as [S1 P1]. destruct (H2 m ltac:(lia)) as [S2 P2]. split; [congruence|].
  intros p Hp. rewrite S1 in Hp. destruct (P1 p Hp) as (V1 & d & h & D1 & J1 & A1). destruct (P2 p Hp) as (V2 & d' & h' & D2 & J2 & A2). split; [congruence|].
  assert (HE : forall i, (i < total (map (@sh R) xs))%nat -> wt i * d i = wt i * d' i /\ wt i * wt i * h i = wt i * wt i * h' i).
  { intros i Hi. destruct (Req_dec (wt i) 0) as [->|Hw]; [split; ring|]. destruct (D1 i Hi Hw) as [A B]. destruct (D2 i Hi Hw) as [A' B']. rewrite <- (is_derive_unique _ _ _ A), <- (is_derive_unique _ _ _ A'). rewrite <- (is_derive_n_unique _ _ _ _ B), <- (is_derive_n_unique _ _ _ _ B'). auto. }
  split; [intros i Hi; rewrite J1, J2 by exact Hi; apply HE, Hi|]. rewrite A1, A2. apply (@sumn_ext R). intros i Hi. apply HE, Hi.
Qed.

(* ================= where a program is regular ================= *)
(* an equation applying primitive k: its arguments have fitting shapes and, if any of them depends on the inputs, k is twice differentiable there *)
Definition eq_guard (mix : prim -> list (arg R) -> Prop) (k : prim) (fs : list (op R)) (args : list (arg R)) : Prop :=
  let xs := map (@aval R) args in fs = (prim_ops k) /\ applies k xs /\ (als args <> [] -> diff_at k xs /\ mix k args).
(* a call of a custom_jvp function with results fs *)
Definition custom_guard (mix : list (arg R) -> Prop) (fs : list (op R)) (args : list (arg R)) : Prop :=
  let xs := map (@aval R) args in forall f, In f fs -> fwd_ext f xs /\ (als args <> [] -> op_ext f xs /\ smooth f xs /\ mix args).
(* a call of a jitted function whose name is registered: its body is that function *)
Definition name_guard (mix : prim -> list (arg R) -> Prop) (name : nat) (j : @jaxpr R prim) (args : list (arg R)) : Prop :=
  exists k, name_prim name = Some k /\ (forall ys, length ys = length args -> plain_run j true ys = Some (map (fun f => o_fwd f ys) (prim_ops k))) /\ eq_guard mix k (prim_ops k) args.
(* every equation executed by the interpreter on args is regular; nothing about sparsity *)
Definition regular (c2r : bool) (th : Z) (j : @jaxpr R prim) (args : list (arg R)) : Prop :=
  good_run (prim_reg c2r) (name_reg c2r) c2r th (eq_guard (fun _ _ => True)) (custom_guard (fun _ => True)) (name_guard (fun _ _ => True)) (fun _ _ _ _ => True) j true args.
(* ... and its mixture of sparse and dense Jacobians is one that the rules handle exactly (mix_at); the bodies of scans consist of functions whose output shape depends on the input shapes only (as for every JAX primitive) *)
Definition regular_mix (c2r : bool) (th : Z) (n : nat) (j : @jaxpr R prim) (args : list (arg R)) : Prop :=
  good_run (prim_reg c2r) (name_reg c2r) c2r th (eq_guard (mix_at th n)) (custom_guard (fun _ => True)) (name_guard (mix_at th n))
    (fun body _ _ _ => shape_only_prog body) j true args.

Lemma plain_als (args : list (arg R)) : forallb isplain args = false -> als args <> [].
Proof. intros H E. rewrite (als_plain _ E) in H. discriminate. Qed.
(* a list-valued function returns only on mixtures of Jacobians that its rule handles exactly: all dense, or one argument *)
Lemma list_mix {A} {RA : CRing A} n c2r th fs (args : list (arg A)) outs : list_rule c2r fs th args = Some outs -> mixF (als args) /\ mix2 th n (als args).
Proof.
  unfold list_rule, list_returns. destruct (negb (any_weak (als args))) eqn:E; [apply negb_true_iff in E; intros _; split; left; exact E|]. cbn [orb].
  destruct (als args) as [|a [|? ?]]; try discriminate. intros _. split; [right; left; reflexivity|apply mix2_one].
Qed.
Lemma custom_ok n c2r th fs args outs : (0 < n)%nat -> (forall v, In v args -> vok n v) -> als args <> [] -> mixF (als args) -> mix2 th n (als args) ->
  (forall f, In f fs -> op_ext f (map (@aval R) args) /\ smooth f (map (@aval R) args)) -> default_rule c2r fs th args = Some outs -> prim_good n fs args outs.
Proof.
  intros Hn HV Hne M1 M2 HF H. unfold default_rule in H. revert outs H. induction fs as [|f fs IH]; intros outs H; cbn in H; [injection H as <-; constructor|].
  destruct (wrap_fl _ c2r th args) as [r|] eqn:Hr; [|discriminate]. destruct (sequence _) as [vs|]; [|discriminate]. cbn in H. injection H as <-. constructor; [|apply IH; [intros g Hg; apply HF; right; exact Hg|reflexivity]].
  destruct (HF f (or_introl eq_refl)) as [F1 F2]. destruct (@general_fn_sound _ _ n f c2r th args r Hn Hne HV M1 M2 F1 Hr) as (a & -> & A1 & A2). auto.
Qed.
Lemma slog_some c2r th (xs : list (arg R)) ys : match xs with [v] => option_map (fun r => [fst r; snd r]) (slogdet_wrapper sign_det log_absdet mat_inv c2r th v) | _ => None end = Some ys ->
  exists x v, wrap_fl (slogdet_rule log_absdet mat_inv) c2r 0%Z xs = Some v /\ ys = [AX x; v].
Proof.
  destruct xs as [|u [|? ?]]; try discriminate. unfold slogdet_wrapper. destruct (wrap_fl _ _ _ _) as [v|]; cbn; [|discriminate]. intros H. injection H as <-. eauto.
Qed.
(* invariant preserved by rules *)
Definition keeps (n : nat) (D : arg R -> Prop) : Prop := forall (Q : rule R) c th xs v, Forall D xs -> (forall u, In u xs -> vok n u) -> wrap_fl Q c th xs = Some v -> D v.
(* invariant preserved by dot_general, and by the rules that involve complex arrays *)
Definition keeps_dot (n : nat) (D : arg R -> Prop) : Prop :=
  (forall c th Dm xs v, dot_fits Dm (map (@aval R) xs) -> Forall D xs -> (forall u, In u xs -> vok n u) -> dot_prim c th Dm xs = Some v -> D v) /\
  (forall k c th xs v, cx_applies k (map (@aval R) xs) -> Forall D xs -> (forall u, In u xs -> vok n u) -> cx_run k c th xs = Some v -> D v) /\
  (forall g ok filled dims_ok ids c th xs v, Forall D xs -> (forall u, In u xs -> vok n u) -> wrap_scatter g ok filled dims_ok ids c th xs = Some v -> mixS (als xs) -> D v) /\
  (forall c th xs ys, cx_square (map (@aval R) xs) -> Forall D xs -> (forall u, In u xs -> vok n u) -> slogC_run c th xs = Some ys -> (forall u, In u xs -> paired u) -> Forall D ys).
Lemma prim_keeps n (D : arg R -> Prop) c2r k rl th xs ys : (forall x, D (AX x)) -> keeps n D -> keeps_dot n D -> applies k (map (@aval R) xs) -> mix_at th n k xs -> prim_reg c2r k = Some rl -> Forall D xs -> (forall u, In u xs -> vok n u) -> rl th xs = Some ys -> Forall D ys.
Proof.
  intros HX HK HKD HA HM E HD HV H.   destruct (classic (exists Dm, k = PDot Dm)) as [(Dm & ->)|HN].
  { cbn in E. injection E as <-. cbv beta in H. apply one_some in H. destruct H as (v & H1 & ->). constructor; [|constructor]. exact (proj1 HKD c2r th Dm xs v HA HD HV H1). }
  destruct (classic (exists c, k = PCplx c)) as [(c & ->)|HNC].
  { cbn in E. injection E as <-. cbv beta in H. apply one_some in H. destruct H as (v & H1 & ->). constructor; [|constructor]. exact (proj1 (proj2 HKD) c c2r th xs v HA HD HV H1). }
  destruct (classic (exists g ok filled dims_ok ids, k = PScatter g ok filled dims_ok ids)) as [(g & ok & fd & dk & ids & ->)|HNT].
  { cbn in E. injection E as <-. cbv beta in H. apply one_some in H. destruct H as (v & H1 & ->). constructor; [|constructor]. exact (proj1 (proj2 (proj2 HKD)) g ok fd dk ids c2r th xs v HD HV H1 HM). }
  destruct (classic (k = PSlogC)) as [->|HNL].
  { cbn in E. injection E as <-. exact (proj2 (proj2 (proj2 HKD)) c2r th xs ys HA HD HV H HM). }
  destruct (classic (k = PSlogdet)) as [->|HNS].
  { cbn in E. injection E as <-. apply slog_some in H. destruct H as (x & v & H1 & ->). constructor; [apply HX|]. constructor; [exact (HK _ _ _ _ _ HD HV H1)|constructor]. }
  assert (HW : (exists Q v, wrap_fl Q c2r th xs = Some v /\ ys = [v]) \/ exists x, ys = [AX x]).
  { destruct k; try (exfalso; apply HN; eexists; reflexivity); try (exfalso; apply HNS; reflexivity); try (exfalso; apply HNC; eexists; reflexivity); try (exfalso; apply HNT; repeat eexists; reflexivity); try (exfalso; apply HNL; reflexivity); cbn in E; try discriminate; injection E as <-; cbv beta in H; first [apply one_some in H; destruct H as (v & H1 & ->); left; eexists; eexists; split; [exact H1|reflexivity]|right; injection H as <-; eauto]. }
  destruct HW as [(Q & v & H1 & ->)|(x & ->)]; (constructor; [|constructor]); [exact (HK Q c2r th xs v HD HV H1)|apply HX].
Qed.
Lemma default_keeps n (D : arg R -> Prop) c2r fs th xs ys : (forall x, D (AX x)) -> keeps n D -> Forall D xs -> (forall u, In u xs -> vok n u) -> default_rule c2r fs th xs = Some ys -> Forall D ys.
Proof.
  intros HX HK Hd HV. unfold default_rule. revert ys. induction fs as [|f fs IH]; intros ys H; cbn in H; [injection H as <-; constructor|].
  destruct (wrap_fl _ c2r th xs) as [v|] eqn:Ev; [|discriminate]. destruct (sequence _) as [vs|]; [|discriminate]. cbn in H. injection H as <-. constructor; [apply (HK _ _ _ _ _ Hd HV Ev)|apply IH; reflexivity].
Qed.
Lemma keeps_full n : keeps n (dfull n).
Proof. intros Q c th xs v Hd HV H. apply (@wrap_full R CRing_R n Q c th xs v); auto. intros a Ha. apply (HV _ Ha). Qed.
Lemma keeps_true n : keeps n (fun _ => True). Proof. intros Q c th xs v _ _ _. exact I. Qed.
Lemma keeps_dot_true n : keeps_dot n (fun _ => True). Proof. split; [intros; exact I|]. split; [intros; exact I|]. split; [intros; exact I|]. intros c th xs ys _ _ _ _ _. induction ys; constructor; auto. Qed.
Lemma wrap_keeps {A} {RA : CRing A} n (Q : rule A) c th xs v : Forall (dfull n) xs -> (forall u, In u xs -> vok n u) -> wrap_fl Q c th xs = Some v -> dfull n v.
Proof. intros Hd HV H. apply (@wrap_full A RA n Q c th xs v); auto. intros a Ha. apply (HV _ Ha). Qed.
Lemma dot_full {A} {RA : CRing A} n c th Dm (xs : list (arg A)) v : (0 < n)%nat -> dot_fits Dm (map (@aval A) xs) -> Forall (dfull n) xs -> (forall u, In u xs -> vok n u) -> dot_prim c th Dm xs = Some v -> dfull n v.
Proof.
  intros Hn (x & y & E & HD) Hd HV H. destruct xs as [|u [|w [|? ?]]]; try discriminate. cbn [map] in E. injection E as E1 E2. subst x y.
  cbn [dot_prim] in H. destruct (dot_general c th Dm u w) as [r0|] eqn:E0; [|discriminate]. cbn in H. injection H as <-.
  assert (HR : dfull n r0); [|destruct r0; exact HR]. inversion Hd as [|? ? D1 Hd1]; subst. inversion Hd1 as [|? ? D2 _]; subst. pose proof (HV u (or_introl eq_refl)) as V1. pose proof (HV w (or_intror (or_introl eq_refl))) as V2.
  unfold dot_general in E0. destruct (negb (is_al u) && negb (is_al w)); [injection E0 as <-; exact I|].
  match type of E0 with (let* x := ?e in _) = _ => destruct e as [u'|] eqn:EU end; [|discriminate]. cbn [bind] in E0.
  match type of E0 with (let* x := ?e in _) = _ => destruct e as [v'|] eqn:EV end; [|discriminate]. cbn [bind] in E0.
  destruct (bshape2 _ _); [|discriminate]. cbn [bind] in E0.
  assert (ES : sparse_arg u && sparse_arg w = false) by (destruct u as [a|x]; [destruct D1 as [D1 _]; cbn; rewrite D1; reflexivity|reflexivity]). rewrite ES, andb_false_r in E0.
  pose proof HD as (N1 & N2 & N3 & N4 & _).
  pose proof (@index_follows _ _ n _ true true c th u u' Hn V1 (@rearr_wf _ (lc Dm) (lb Dm) (length (rf Dm (sh (aval w)))) false N1 N2) EU) as (_ & VU & _).
  pose proof (@index_follows _ _ n _ true true c th w v' Hn V2 (@rearr_wf _ (rc Dm) (rb Dm) (length (lf Dm (sh (aval u)))) true N3 N4) EV) as (_ & VV & _).
  assert (K : forall (Q : rule A) a b, dfull n a -> vok n a -> wrap_fl Q c th [a] = Some b -> dfull n b).
  { intros Q a b Da Va Hb. apply (@wrap_keeps A RA n Q c th [a] b); [constructor; [exact Da|constructor]| |exact Hb]. intros z [<-|[]]. exact Va. }
  apply (@wrap_keeps A RA n dotlast_rule c th [u'; v'] r0); [constructor; [exact (K _ _ _ D1 V1 EU)|constructor; [exact (K _ _ _ D2 V2 EV)|constructor]]| |exact E0]. intros z [<-|[<-|[]]]; assumption.
Qed.
Lemma scat_full {A} {RA : CRing A} n g ok filled dims_ok ids c th (xs : list (arg A)) v : Forall (dfull n) xs -> (forall u, In u xs -> vok n u) -> wrap_scatter g ok filled dims_ok ids c th xs = Some v -> dfull n v.
Proof.
  intros HD HV H. rewrite wrap_scatter_eq in H; [exact (@wrap_keeps A RA n _ c th xs v HD HV H)|]. apply dense_mixS. revert HD. apply Forall_impl. intros u. apply dfull_dense.
Qed.
Lemma dfull_dec n (v : arg R) : vok n v -> iscx (aval v) -> dfull n v -> dfull n (dec v).
Proof.
  destruct v as [a|x]; [|auto]. intros HV HX [H1 H2]. destruct (vok_rows HV HX) as (k & s & E1 & E2). split; [unfold weak in *; cbn; destruct (jidx (ljac a)); [discriminate|reflexivity]|].
  cbn. rewrite (rows_cons _ E2) in H2. subst k. unfold rows, join2. cbn [sh]. rewrite E2. change (n :: s ++ [2%nat]) with ((n :: s) ++ [2%nat]). rewrite removelast_last. reflexivity.
Qed.
Lemma ck_full n k c th (xs : list (arg (R * R))) v : (0 < n)%nat -> ck_applies k (map (@aval (R * R)) xs) -> Forall (dfull n) xs -> (forall u, In u xs -> vok n u) -> ck_run k c th xs = Some v -> dfull n v.
Proof. intros Hn HA HD HV H. destruct k; cbn [ck_run ck_applies] in *; try exact (@wrap_keeps (R * R) CRing_CR n _ c th xs v HD HV H); [exact (@dot_full (R * R) CRing_CR n c th D xs v Hn HA HD HV H)|]. exact (@scat_full (R * R) CRing_CR n g ok filled dims_ok ids c th xs v HD HV H). Qed.
Lemma dfull_enc n (v : arg (R * R)) : (0 < n)%nat -> dfull n v -> dfull n (enc v).
Proof.
  intros Hn. destruct v as [a|x]; [|auto]. intros [H1 H2]. split; [unfold weak in *; cbn; destruct (jidx (ljac a)); [discriminate|reflexivity]|]. cbn. unfold rows, split2 in *. cbn [sh]. destruct (sh (jdata (ljac a))); cbn in *; [lia|exact H2].
Qed.
Lemma dfull_map {A B} n (phi : A -> B) (v : arg A) w : dfull n v -> wrap_elementwise phi [v] = Some w -> dfull n w.
Proof. destruct v as [a|x]; cbn; intros H E; injection E as <-; exact H. Qed.
Lemma slogC_full n c th (xs : list (arg R)) ys : (0 < n)%nat -> cx_square (map (@aval R) xs) -> Forall (dfull n) xs -> (forall u, In u xs -> vok n u) -> slogC_run c th xs = Some ys -> Forall (dfull n) ys.
Proof.
  intros Hn (x & L & m & Ex & Es) HD HV H. destruct xs as [|u [|? ?]]; try discriminate. cbn [map] in Ex. injection Ex as Ex. inversion HD as [|? ? D1 _]; subst. pose proof (HV u (or_introl eq_refl)) as V1. assert (HX : iscx (aval u)) by (eexists; exact Es).
  unfold slogC_run, slogdet_complex in H. destruct (wrap_fl _ c 0%Z [dec u]) as [[b|y]|] eqn:E; cbn in H; try discriminate. injection H as <-.
  assert (HW : dfull n (AL b)). { refine (@wrap_keeps (R * R) CRing_CR n _ c 0%Z [dec u] (AL b) _ _ E); [constructor; [exact (@dfull_dec n u V1 HX D1)|constructor]|]. intros z [<-|[]]. apply dec_vok; auto. apply dense_paired. exact (@dfull_dense R n _ D1). }
  constructor; [apply (@dfull_enc n (AL (phase_la b)) Hn); exact HW|]. constructor; [exact HW|constructor].
Qed.
Lemma keeps_dot_full n : (0 < n)%nat -> keeps_dot n (dfull n).
Proof.
  intros Hn. split; [intros c th Dm xs v HF HD HV H; exact (@dot_full R CRing_R n c th Dm xs v Hn HF HD HV H)|].
  split; [|split; [intros g ok fd dk ids c th xs v HD HV H _; exact (@scat_full R CRing_R n g ok fd dk ids c th xs v HD HV H)|intros c th xs ys HA HD HV H _; exact (@slogC_full n c th xs ys Hn HA HD HV H)]]. intros k c th xs v HA HD HV H. destruct k as [k|k|]; cbn [cx_run cx_applies] in *.
  - destruct HA as [HX HA]. destruct (ck_run k c th (map dec xs)) as [w|] eqn:E; [|discriminate]. cbn in H. injection H as <-.
    assert (HW : dfull n w).
    { apply (@ck_full n k c th (map dec xs) w Hn); [rewrite dec_avals; exact HA| | |exact E].
      - apply Forall_forall. intros u Hu. apply in_map_iff in Hu. destruct Hu as (u0 & <- & Hu). rewrite Forall_forall in HD. apply dfull_dec; auto. apply HX. apply in_map. exact Hu.
      - intros u Hu. apply in_map_iff in Hu. destruct Hu as (u0 & <- & Hu). rewrite Forall_forall in HD. apply dec_vok; auto; [apply HX; apply in_map; exact Hu|]. apply dense_paired. exact (@dfull_dense R n _ (HD _ Hu)). }
    apply dfull_enc; assumption.
  - destruct HA as (x & Ex & HX). destruct xs as [|u [|? ?]]; try discriminate. cbn [map] in Ex. injection Ex as <-. inversion HD as [|? ? D1 _]; subst. pose proof (HV u (or_introl eq_refl)) as V1. destruct k; cbn [cross_run map cross_in] in *.
    + exact (@dfull_map _ _ n _ _ _ (@dfull_dec n u V1 HX D1) H).
    + exact (@dfull_map _ _ n _ _ _ (@dfull_dec n u V1 HX D1) H).
    + destruct (wrap_elementwise cconj [dec u]) as [w|] eqn:E; [|discriminate]. cbn in H. injection H as <-. apply dfull_enc; [exact Hn|]. exact (@dfull_map _ _ n _ _ _ (@dfull_dec n u V1 HX D1) E).
    + destruct (wrap_elementwise to_complex [u]) as [w|] eqn:E; [|discriminate]. cbn in H. injection H as <-. apply dfull_enc; [exact Hn|]. exact (@dfull_map _ _ n _ _ _ D1 E).
    + injection H as <-. exact D1.
  - destruct HA as (x & Ex & HX). destruct xs as [|u [|? ?]]; try discriminate. cbn [map] in Ex. injection Ex as <-. inversion HD as [|? ? D1 _]; subst. pose proof (HV u (or_introl eq_refl)) as V1. unfold abs_run, complex_abs in H.
    destruct (wrap_fl _ c th [dec u]) as [w|] eqn:E; [|discriminate]. cbn in H. injection H as <-. assert (HW : dfull n w).
    { refine (@wrap_keeps (R * R) CRing_CR n _ c th [dec u] w _ _ E); [constructor; [exact (@dfull_dec n u V1 HX D1)|constructor]|]. intros z [<-|[]]. apply dec_vok; auto. apply dense_paired. exact (@dfull_dense R n _ D1). }
    destruct w; exact HW.
Qed.

(* invariants kept by every rule, with mixtures of Jacobians that the rules handle *)
Section Keeps.
Context (c2r : bool) (th : Z) (n : nat) (Hn : (0 < n)%nat) (D : arg R -> Prop) (HX : forall x, D (AX x)) (HK : keeps n D) (HKD : keeps_dot n D).
Context (mix : prim -> list (arg R) -> Prop) (mixc : list (arg R) -> Prop).
Context (HM : forall k args, Forall D args -> mix k args -> mix_at th n k args).
Lemma both_prim key args outs : valid n D args -> als args <> [] -> eq_guard mix key (prim_ops key) args -> eval_prim (prim_reg c2r) c2r key (prim_ops key) th args = Some outs -> prim_good n (prim_ops key) args outs /\ Forall D outs.
Proof.
  intros [HD HV] Hne (_ & G1 & G2) H. split.
  - apply (@prim_ok n c2r th key args outs Hn HV Hne); [|exact H]. split; [reflexivity|]. split; [exact G1|]. intros H1. destruct (G2 H1). auto.
  - unfold eval_prim in H. destruct (prim_reg c2r key) as [rl|] eqn:E; [apply (@prim_keeps n D c2r key rl th args outs HX HK HKD G1 (HM HD (proj2 (G2 Hne))) E HD HV H)|apply (@default_keeps n D c2r _ th args outs HX HK HD HV (missing_default _ _ _ _ H))].
Qed.
Lemma both_custom fs args outs : valid n D args -> als args <> [] -> custom_guard mixc fs args -> list_rule c2r fs th args = Some outs -> prim_good n fs args outs /\ Forall D outs.
Proof.
  intros [HD HV] Hne HG H. destruct (@list_mix _ _ n _ _ _ _ _ H) as [M1 M2]. apply list_default in H. split; [|apply (@default_keeps n D c2r _ th args outs HX HK HD HV H)].
  apply (@custom_ok n c2r th _ args outs Hn HV Hne M1 M2); [|exact H]. intros f Hf. destruct (HG f Hf) as [_ G1]. destruct (G1 Hne) as (A & B & _). auto.
Qed.
End Keeps.

(* the carry of a scan keeps its sparsity pattern, for a reason J *)
Definition keeps_carry (c2r : bool) (th : Z) (j : @jaxpr R prim) (nc nk : nat) (args : list (arg R)) : Prop := forall fc fy,
  iterate (jrun (prim_reg c2r) (name_reg c2r) c2r false th j false) nc nk args (s_carry nc nk args) 0 = Some (fc, fy) -> Interp.all2 (@carry_match R) (s_carry nc nk args) fc = true ->
  exists J : list (arg R) -> Prop, J (s_carry nc nk args) /\ forall c t c' y, J c -> iterate (jrun (prim_reg c2r) (name_reg c2r) c2r false th j false) nc nk args c t = Some (c', y) ->
    Interp.all2 (@same_type R) (s_carry nc nk args) c' = true -> Forall2 (@ext_idx R) (s_carry nc nk args) c' /\ J (map2 (@set_idx R) c' (s_carry nc nk args)).
(* one theorem for all modes: D is an invariant of the values, Hp and Hc say that the rules are exact on such values and keep D *)
Section Both.
Context (c2r : bool) (th : Z) (n : nat) (D : arg R -> Prop) (HX : forall x, D (AX x)).
Context (mix : prim -> list (arg R) -> Prop) (mixc : list (arg R) -> Prop) (GS : @jaxpr R prim -> nat -> nat -> list (arg R) -> Prop).
Context (HDE : forall v u, ext_idx u v -> D v -> D (set_idx v u)).
Context (Hp : forall key args outs, valid n D args -> als args <> [] -> eq_guard mix key (prim_ops key) args -> eval_prim (prim_reg c2r) c2r key (prim_ops key) th args = Some outs -> prim_good n (prim_ops key) args outs /\ Forall D outs).
Context (Hc : forall fs args outs, valid n D args -> als args <> [] -> custom_guard mixc fs args -> list_rule c2r fs th args = Some outs -> prim_good n fs args outs /\ Forall D outs).
Context (HGS : forall j nc nk args, valid n D args -> GS j nc nk args -> keeps_carry c2r th j nc nk args).
Theorem both_sound j : sound_run (prim_reg c2r) (name_reg c2r) c2r th (eq_guard mix) (custom_guard mixc) (name_guard mix) GS n D j.
Proof.
  apply program_sound; auto.
  - intros key fs args HV HG. unfold rule_here. destruct (forallb isplain args) eqn:Ep.
    + destruct HG as (-> & G1 & _). intros f Hf. apply (@prim_ext _ _ f G1 Hf).
    + intros outs H. destruct HG as (E & G2). subst fs. apply (@Hp key args outs HV (plain_als _ Ep)); [split; [reflexivity|exact G2]|exact H].
  - intros fs args HV HG. unfold rule_here. destruct (forallb isplain args) eqn:Ep.
    + intros f Hf. apply (HG f Hf).
    + intros outs H. apply (@Hc fs args outs HV (plain_als _ Ep) HG H).
  - intros name rl j0 args Hr HV (k & Ek & HP & HG). unfold name_reg in Hr. rewrite Ek in Hr. exists (prim_ops k). split; [exact HP|]. unfold rule_here. destruct (forallb isplain args) eqn:Ep.
    + destruct HG as (_ & G1 & _). intros f Hf. apply (@prim_ext _ _ f G1 Hf).
    + intros outs H. apply (@Hp k args outs HV (plain_als _ Ep) HG). unfold eval_prim. rewrite Hr. exact H.
Qed.
End Both.

(* ================= forward_laplacian ================= *)
Local Notation fwd c2r := (forward_laplacian (prim_reg c2r) (name_reg c2r) c2r).
(* interpreter.py:288-291: the absolute threshold *)
Definition th_of (t : Q) (leaves : list (arg R)) : Z := threshold_of t (map (fun v => prod (sh (aval v))) leaves).
Lemma th_neg t leaves : (t <= 0)%Q -> (th_of t leaves <= 0)%Z.
Proof.
  intros H. unfold th_of, threshold_of. assert (E : Qle_bool t 0 = true) by (apply Qle_bool_iff; exact H). rewrite E. cbn [negb andb]. unfold trunc.
  assert (HC : (Qceiling t <= 0)%Z). { apply Qceiling_resp_le in H. change (Qceiling 0) with 0%Z in H. exact H. }
  destruct (Qle_bool 0 t) eqn:E0; [|exact HC]. eapply Z.le_trans; [|exact HC]. apply Z.le_trans with (Qfloor t); [lia|]. rewrite Zle_Qle. eapply Qle_trans; [apply Qfloor_le|apply Qle_ceiling].
Qed.
Lemma no_als (xs : list (nd R)) : existsb (@is_al R) (map (@AX R) xs) = false.
Proof. induction xs; cbn; auto. Qed.
Lemma avals_AX (xs : list (nd R)) : map (@aval R) (map (@AX R) xs) = xs.
Proof. rewrite map_map. apply map_id. Qed.
Lemma init_plain sparse ws (xs : list (nd R)) : init_state sparse ws (map (@AX R) xs) = seeds sparse ws xs.
Proof. unfold init_state. rewrite no_als, avals_AX. reflexivity. Qed.
Lemma seeds_full ws xs : wts_ok ws xs -> Forall (dfull (total (map (@sh R) xs))) (seeds false ws xs).
Proof.
  intros HW. unfold seeds. apply Forall_forall. intros v Hv. apply in_map_iff in Hv. destruct Hv as (k & <- & Hk). apply in_seq in Hk. destruct (@seed_ok R CRing_R ws xs false k HW ltac:(lia)) as (_ & _ & _ & S4 & S5 & _). split; assumption.
Qed.
Lemma enc_dense (v : arg (R * R)) : dense_arg v -> dense_arg (enc v).
Proof. destruct v as [a|x]; cbn; [|auto]. unfold weak. cbn. destruct (jidx (ljac a)); [discriminate|auto]. Qed.
Lemma ewise_dense {A B} (phi : A -> B) (xs : list (arg A)) w : Forall (@dense_arg A) xs -> wrap_elementwise phi xs = Some w -> dense_arg w.
Proof. destruct xs as [|[a|x] [|? ?]]; cbn; try discriminate; intros H E; injection E as <-; [inversion H; assumption|exact I]. Qed.
Lemma cx_dense c c2r th xs v : Forall (@dense_arg R) xs -> cx_run c c2r th xs = Some v -> dense_arg v.
Proof.
  intros HD H. assert (HC : Forall (@dense_arg (R * R)) (map dec xs)) by (apply Forall_forall; intros u Hu; apply in_map_iff in Hu; destruct Hu as (u0 & <- & Hu); apply dense_dec; rewrite Forall_forall in HD; auto).
  destruct c as [k|k|]; cbn [cx_run] in H.
  - destruct (ck_run k c2r th (map dec xs)) as [w|] eqn:E; [|discriminate]. cbn in H. injection H as <-. apply enc_dense. destruct k; cbn [ck_run] in E; try exact (@wrap_dense (R * R) CRing_CR _ c2r th _ w HC E); [exact (@dot_dense (R * R) CRing_CR c2r th D _ w HC E)|]. rewrite wrap_scatter_eq in E by (apply dense_mixS; exact HC). exact (@wrap_dense (R * R) CRing_CR _ c2r th _ w HC E).
  - destruct k; cbn [cross_run] in H; try exact (ewise_dense _ HC H).
    + destruct (wrap_elementwise cconj (map dec xs)) as [w|] eqn:E; [|discriminate]. cbn in H. injection H as <-. apply enc_dense. exact (ewise_dense _ HC E).
    + destruct (wrap_elementwise to_complex xs) as [w|] eqn:E; [|discriminate]. cbn in H. injection H as <-. apply enc_dense. exact (ewise_dense _ HD E).
    + destruct xs as [|u [|? ?]]; try discriminate. injection H as <-. inversion HD; assumption.
  - unfold abs_run, complex_abs in H. destruct xs as [|u [|? ?]]; try discriminate. destruct (wrap_fl _ c2r th [dec u]) as [w|] eqn:E; [|discriminate]. cbn in H. injection H as <-. pose proof (@wrap_dense (R * R) CRing_CR _ c2r th _ w HC E) as HW. destruct w; exact HW.
Qed.
Lemma dense_prims c2r key r : prim_reg c2r key = Some r -> @dense_rule R r.
Proof.
  intros E th xs ys HD H.
  destruct (classic (exists Dm, key = PDot Dm)) as [(Dm & ->)|HN].
  { cbn in E. injection E as <-. cbv beta in H. apply one_some in H. destruct H as (v & H1 & ->). constructor; [|constructor]. exact (dot_dense _ _ _ HD H1). }
  destruct (classic (exists c, key = PCplx c)) as [(c & ->)|HNC].
  { cbn in E. injection E as <-. cbv beta in H. apply one_some in H. destruct H as (v & H1 & ->). constructor; [|constructor]. exact (cx_dense _ _ _ HD H1). }
  destruct (classic (exists g ok filled dims_ok ids, key = PScatter g ok filled dims_ok ids)) as [(g & ok & fd & dk & ids & ->)|HNT].
  { cbn in E. injection E as <-. cbv beta in H. apply one_some in H. destruct H as (v & H1 & ->). constructor; [|constructor]. rewrite wrap_scatter_eq in H1 by (apply dense_mixS; exact HD). exact (wrap_dense _ _ _ HD H1). }
  destruct (classic (key = PSlogC)) as [->|HNL].
  { cbn in E. injection E as <-. unfold slogC_run, slogdet_complex in H. destruct xs as [|u [|? ?]]; try discriminate. destruct (wrap_fl _ c2r 0%Z [dec u]) as [[b|y]|] eqn:E1; cbn in H; try discriminate. injection H as <-.
    assert (HC : Forall (@dense_arg (R * R)) [dec u]) by (constructor; [apply dense_dec; inversion HD; assumption|constructor]). pose proof (@wrap_dense (R * R) CRing_CR _ c2r _ _ _ HC E1) as HW.
    constructor; [apply (@enc_dense (AL (phase_la b))); exact HW|]. constructor; [exact HW|constructor]. }
  destruct (classic (key = PSlogdet)) as [->|HNS].
  { cbn in E. injection E as <-. apply slog_some in H. destruct H as (x & v & H1 & ->). constructor; [exact I|]. constructor; [exact (wrap_dense _ _ _ HD H1)|constructor]. }
  assert (HW : (exists Q v, wrap_fl Q c2r th xs = Some v /\ ys = [v]) \/ exists x, ys = [AX x]).
  { destruct key; try (exfalso; apply HN; eexists; reflexivity); try (exfalso; apply HNS; reflexivity); try (exfalso; apply HNC; eexists; reflexivity); try (exfalso; apply HNT; repeat eexists; reflexivity); try (exfalso; apply HNL; reflexivity); cbn in E; try discriminate; injection E as <-; cbv beta in H; first [apply one_some in H; destruct H as (v & H1 & ->); left; eexists; eexists; split; [exact H1|reflexivity]|right; injection H as <-; eauto]. }
  destruct HW as [(Q & v & H1 & ->)|(x & ->)]; (constructor; [|constructor]); [exact (wrap_dense _ _ _ HD H1)|exact I].
Qed.
Lemma dense_names c2r name r : name_reg c2r name = Some r -> @dense_rule R r.
Proof. unfold name_reg. destruct (name_prim name) as [k|]; [apply dense_prims|discriminate]. Qed.
Lemma dense_ext n (v u : arg R) : ext_idx u v -> dfull n v -> dfull n (set_idx v u).
Proof. destruct u as [b|y], v as [a|x]; cbn; auto. intros He [H1 H2]. split; cbn; [|exact H2]. unfold weak in *. cbn. destruct (jidx (ljac a)); [discriminate|]. destruct (jidx (ljac b)); [destruct He|reflexivity]. Qed.
Lemma dense_scan c2r th n j nc nk args : valid n (dfull n) args -> keeps_carry c2r th j nc nk args.
Proof.
  intros [HD HV] fc fy _ _. exists (Forall2 (@InterpScan.same_idx R) (s_carry nc nk args)). split; [apply same_idx_refl|]. intros c t c' y Hc Hi Ht. split; [|apply types_set; exact Ht].
  assert (Hx : Forall (@dense_arg R) args) by (revert HD; apply Forall_impl; intros u; apply dfull_dense).
  assert (Hd : Forall (@dense_arg R) (s_carry nc nk args)) by (unfold s_carry; apply Forall_firstn, Forall_skipn, Hx).
  apply same_exts. apply dense_same_all; auto. unfold iterate in Hi. match type of Hi with context [match ?b with _ => _ end] => destruct b as [r|] eqn:Er; [|discriminate] end. injection Hi as <- <-. apply Forall_firstn.
  apply (@dense_run R CRing_R prim (prim_reg c2r) (name_reg c2r) c2r th j (fun k _ => @dense_step R CRing_R prim (prim_reg c2r) (name_reg c2r) c2r (@dense_prims c2r) (@dense_names c2r) k) false _ _) in Er; auto.
  apply Forall_app'; [unfold s_cons; apply Forall_firstn, Hx|]. apply Forall_app'; [apply (same_idx_dense Hc Hd)|]. clear. induction (s_inp nc nk args); constructor; cbn; auto.
Qed.
Lemma dense_mixes th n k args : Forall (dfull n) args -> mix_at th n k args.
Proof. intros H. apply mix_dense. revert H. apply Forall_impl. intros u. apply dfull_dense. Qed.
(* the interpreter on dense arguments *)
Theorem run_dense c2r th n j args rs W : (0 < n)%nat -> jrun (prim_reg c2r) (name_reg c2r) c2r false th j true args = Some rs -> Forall (dfull n) args -> regular c2r th j args -> tracks n args W ->
  exists P, (forall i, (i < n)%nat -> near (fun t => plain_run j true (W i t) = Some (P i t))) /\ tracks n rs P /\ Forall (dfull n) rs.
Proof.
  intros Hn H HD HR HT. refine (@both_sound c2r th n (dfull n) (fun _ => I) (fun _ _ => True) (fun _ => True) (fun _ _ _ _ => True) (@dense_ext n) _ _ _ j true args rs W H HD HR HT).
  - apply (@both_prim c2r th n Hn (dfull n) (fun _ => I) (@keeps_full n) (keeps_dot_full Hn) (fun _ _ => True)). intros k a Ha _. apply dense_mixes. exact Ha.
  - apply (@both_custom c2r th n Hn (dfull n) (fun _ => I) (@keeps_full n) (fun _ => True)).
  - intros j0 nc nk a HV _. apply (@dense_scan c2r th n j0 nc nk a HV).
Qed.
Theorem run_mixed c2r th n j args rs W : (0 < n)%nat -> jrun (prim_reg c2r) (name_reg c2r) c2r false th j true args = Some rs -> regular_mix c2r th n j args -> tracks n args W ->
  exists P, (forall i, (i < n)%nat -> near (fun t => plain_run j true (W i t) = Some (P i t))) /\ tracks n rs P.
Proof.
  intros Hn H HR HT. assert (HD : Forall (fun _ : arg R => True) args) by (apply Forall_forall; auto).
  refine ((fun HX => _) (@both_sound c2r th n (fun _ => True) (fun _ => I) (mix_at th n) (fun _ => True) (fun body _ _ _ => shape_only_prog body) (fun _ _ _ _ => I) _ _ _ j true args rs W H HD HR HT)).
  - destruct HX as (P & P1 & P2 & _). eauto.
  - apply (@both_prim c2r th n Hn (fun _ => True) (fun _ => I) (@keeps_true n) (@keeps_dot_true n) (mix_at th n)). auto.
  - apply (@both_custom c2r th n Hn (fun _ => True) (fun _ => I) (@keeps_true n)).
  - intros j0 nc nk a HV HG. exact (@shape_scan c2r th j0 nc nk a HG).
Qed.
(* specification: dense_array has one row per input *)
Definition full_rows_of (n : nat) (rs : list (arg R)) : Prop := forall a, In (AL a) rs -> exists J, dense_array (ljac a) = Some J /\ sh J = n :: sh (lx a).
Lemma dfull_rows n rs P : tracks n rs P -> Forall (dfull n) rs -> full_rows_of n rs.
Proof.
  intros HT HD a Ha. rewrite Forall_forall in HD. specialize (HD _ Ha). apply (In_nth _ _ (AX nd0)) in Ha. destruct Ha as (m & Hm & E). pose proof (@tracks_nth R _ _ n rs P m HT Hm) as HX. rewrite E in HX. destruct HX as (HW & _).
  pose proof (@dfull_full R CRing_R n a HW HD) as HF. exists (jdata (ljac a)). split; [apply (@full_dense R CRing_R n a HF)|apply HF].
Qed.
(* C01, C03 dense *)
Theorem forward_dense c2r t j ws xs rs : (t <= 0)%Q -> (0 < total (map (@sh R) xs))%nat -> wts_ok ws xs -> smallj j -> regular c2r (th_of t (map (@AX R) xs)) j (seeds false ws xs) ->
  fwd c2r t j ws (map (@AX R) xs) = Some rs -> exact_at (plain_run j true) xs (coord_weight ws xs) rs /\ full_rows_of (total (map (@sh R) xs)) rs.
Proof.
  intros Ht Hn HW HS HR H. unfold forward_laplacian in H. cbv zeta in H. change (threshold_of t (map (fun v => prod (sh (aval v))) (map (@AX R) xs))) with (th_of t (map (@AX R) xs)) in H.
  pose proof (@th_neg t (map (@AX R) xs) Ht) as Hth. destruct (Z.ltb_spec 0 (th_of t (map (@AX R) xs))) as [Hx|_]; [lia|]. rewrite init_plain in H. rewrite jrun_frees_nothing in H by exact HS.
  destruct (@run_dense _ _ _ _ _ _ _ Hn H (@seeds_full ws xs HW) HR (@seed_tracks false ws xs HW)) as (P & P1 & P2 & P3). split; [apply (@tracks_exact _ xs _ rs P Hn P1 P2)|apply (@dfull_rows _ _ P P2 P3)].
Qed.
(* C02, C03 for every threshold *)
Theorem forward_mixed c2r t j ws xs rs : let th := th_of t (map (@AX R) xs) in let n := total (map (@sh R) xs) in (0 < n)%nat -> wts_ok ws xs -> smallj j -> regular_mix c2r th n j (seeds (0 <? th)%Z ws xs) ->
  fwd c2r t j ws (map (@AX R) xs) = Some rs -> exact_at (plain_run j true) xs (coord_weight ws xs) rs.
Proof.
  intros th n Hn HW HS HR H. unfold forward_laplacian in H. cbv zeta in H. change (threshold_of t (map (fun v => prod (sh (aval v))) (map (@AX R) xs))) with th in H.
  rewrite init_plain in H. rewrite jrun_frees_nothing in H by exact HS.
  destruct (@run_mixed _ _ _ _ _ _ _ Hn H HR (@seed_tracks (0 <? th)%Z ws xs HW)) as (P & P1 & P2). apply (@tracks_exact _ xs _ rs P Hn P1 P2).
Qed.
(* C04 *)
Definition then_ (f g : @jaxpr R prim) (xs : list (nd R)) : option (list (nd R)) := match plain_run f true xs with Some ys => plain_run g true ys | None => None end.
Lemma near_then n f g xs (wt : nat -> R) P P2 : (forall i, (i < n)%nat -> near (fun t => plain_run f true (move xs i (t * wt i)) = Some (P i t))) ->
  (forall i, (i < n)%nat -> near (fun t => plain_run g true (P i t) = Some (P2 i t))) -> forall i, (i < n)%nat -> near (fun t => then_ f g (move xs i (t * wt i)) = Some (P2 i t)).
Proof. intros H1 H2 i Hi. generalize (near_and (H1 i Hi) (H2 i Hi)). apply near_imp. intros t [E1 E2]. unfold then_. rewrite E1. exact E2. Qed.
Theorem compose_dense c2r t t2 f g ws ws2 xs rs rs2 : (t <= 0)%Q -> (0 < total (map (@sh R) xs))%nat -> wts_ok ws xs -> smallj f -> smallj g ->
  regular c2r (th_of t (map (@AX R) xs)) f (seeds false ws xs) -> fwd c2r t f ws (map (@AX R) xs) = Some rs ->
  existsb (@is_al R) rs = true -> regular c2r (th_of t2 rs) g rs -> fwd c2r t2 g ws2 rs = Some rs2 ->
  exact_at (then_ f g) xs (coord_weight ws xs) rs2 /\ full_rows_of (total (map (@sh R) xs)) rs2.
Proof.
  intros Ht Hn HW HS HS2 HR H He HR2 H2. unfold forward_laplacian in H, H2. cbv zeta in H, H2. change (threshold_of t (map (fun v => prod (sh (aval v))) (map (@AX R) xs))) with (th_of t (map (@AX R) xs)) in H. change (threshold_of t2 (map (fun v => prod (sh (aval v))) rs)) with (th_of t2 rs) in H2.
  pose proof (@th_neg t (map (@AX R) xs) Ht) as Hth. destruct (Z.ltb_spec 0 (th_of t (map (@AX R) xs))) as [Hx|_]; [lia|]. rewrite init_plain in H. rewrite jrun_frees_nothing in H by exact HS.
  destruct (@run_dense _ _ _ _ _ _ _ Hn H (@seeds_full ws xs HW) HR (@seed_tracks false ws xs HW)) as (P & P1 & P2 & P3).
  unfold init_state in H2. rewrite He in H2. rewrite jrun_frees_nothing in H2 by exact HS2. destruct (@run_dense _ _ _ _ _ _ P Hn H2 P3 HR2 P2) as (Q & Q1 & Q2 & Q3).
  split; [apply (@tracks_exact _ xs _ rs2 Q Hn (@near_then _ f g xs _ P Q P1 Q1) Q2)|apply (@dfull_rows _ _ Q Q2 Q3)].
Qed.
Theorem compose_mixed c2r t t2 f g ws ws2 xs rs rs2 : let th := th_of t (map (@AX R) xs) in let n := total (map (@sh R) xs) in (0 < n)%nat -> wts_ok ws xs -> smallj f -> smallj g ->
  regular_mix c2r th n f (seeds (0 <? th)%Z ws xs) -> fwd c2r t f ws (map (@AX R) xs) = Some rs ->
  existsb (@is_al R) rs = true -> regular_mix c2r (th_of t2 rs) n g rs -> fwd c2r t2 g ws2 rs = Some rs2 ->
  exact_at (then_ f g) xs (coord_weight ws xs) rs2.
Proof.
  intros th n Hn HW HS HS2 HR H He HR2 H2. unfold forward_laplacian in H, H2. cbv zeta in H, H2. change (threshold_of t (map (fun v => prod (sh (aval v))) (map (@AX R) xs))) with th in H. change (threshold_of t2 (map (fun v => prod (sh (aval v))) rs)) with (th_of t2 rs) in H2.
  rewrite init_plain in H. rewrite jrun_frees_nothing in H by exact HS.
  destruct (@run_mixed _ _ _ _ _ _ _ Hn H HR (@seed_tracks (0 <? th)%Z ws xs HW)) as (P & P1 & P2).
  unfold init_state in H2. rewrite He in H2. rewrite jrun_frees_nothing in H2 by exact HS2. destruct (@run_mixed _ _ _ _ _ _ P Hn H2 HR2 P2) as (Q & Q1 & Q2).
  apply (@tracks_exact _ xs _ rs2 Q Hn (@near_then _ f g xs _ P Q P1 Q1) Q2).
Qed.
