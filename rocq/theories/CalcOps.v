(* CalcOps.v : the primitives of Prims.v over the reals are twice differentiable with the partial derivatives stated there.  No code is modelled here. *)
From Coq Require Import Reals Lra.
From Coquelicot Require Import Coquelicot.
From Verif Require Export CalcRun.
Set Implicit Arguments.
Open Scope nat_scope.

Section Ops.
Context {A : Type} {RA : CRing A} {JA : @Jet A RA}.
Add Ring Aring_CalcOps : (@rth A RA).
Local Open Scope nat_scope.
Local Open Scope cr_scope.
Lemma add0 (x : A) : 0 + x = x. Proof. ring. Qed.
Lemma add0r (x : A) : x + 0 = x. Proof. ring. Qed.
Lemma mul1 (x : A) : 1 * x = x. Proof. ring. Qed.
Lemma curves_shapes xs D H W : curves xs D H W -> near (fun t => map (@sh A) (W t) = map (@sh A) xs).
Proof.
  intros [H1 H2]. assert (HN : near (fun t => forall a, a < length xs -> sh (nth a (W t) nd0) = sh (nth a xs nd0))) by (apply near_nat; intros a Ha; apply (H2 a Ha)).
  generalize (near_and H1 HN). apply near_imp. intros t [E1 E2]. apply nth_ext with (d := []) (d' := []); rewrite !map_length; auto. intros a Ha.
  rewrite !(@nth_map_in _ _ (@sh A) _ a nd0 []) by lia. apply E2. lia.
Qed.
Lemma curves_at xs D H W : curves xs D H W -> forall a p, a < length xs -> inb p (sh (nth a xs nd0)) -> jt (fun t => at_ (nth a (W t) nd0) p) (at_ (nth a xs nd0) p) (D a p) (H a p).
Proof. intros [_ H2] a p Ha Hp. apply (proj2 (H2 a Ha) p Hp). Qed.

(* ---- affine functions ---- *)
Definition affine_at (f : op A) (xs : list (nd A)) (c : ix -> A) : Prop := linear f xs /\
  forall ys, map (@sh A) ys = map (@sh A) xs -> sh (o_fwd f ys) = sh (o_fwd f xs) /\ forall p, inb p (sh (o_fwd f xs)) -> at_ (o_fwd f ys) p = (c p + chain1 f xs p (fun a q => at_ (nth a ys nd0) q)).
Lemma quad_linear f (xs : list (nd A)) p u v : linear f xs -> inb p (sh (o_fwd f xs)) -> quad f xs p u v = 0.
Proof.
  intros HL Hp. unfold quad. apply (@sumn_zero A RA). intros a Ha. apply (@sumL_zero A RA). intros q Hq. apply (@sumn_zero A RA). intros b Hb. apply (@sumL_zero A RA). intros s Hs. apply allix_spec in Hq, Hs.
  rewrite HL; auto. cbn. ring.
Qed.
Lemma affine_smooth f xs c : affine_at f xs c -> smooth f xs.
Proof.
  intros [HL HA] D H W HC. pose proof (curves_shapes HC) as HS. split.
  - generalize HS. apply near_imp. intros t E. apply HA. exact E.
  - intros p Hp. apply jt_ext with (phi := fun t => (c p + chain1 f xs p (fun a q => at_ (nth a (W t) nd0) q))).
    + generalize HS. apply near_imp. intros t E. symmetry. apply HA; auto.
    + assert (HJ : jt (fun t => chain1 f xs p (fun a q => at_ (nth a (W t) nd0) q)) (chain1 f xs p (fun a q => at_ (nth a xs nd0) q)) (chain1 f xs p D) (chain1 f xs p H)).
      { unfold chain1. apply jt_sumn. intros a Ha. apply jt_sumL. intros q Hq. apply allix_spec in Hq. apply jt_scal. apply (curves_at HC); auto. }
      pose proof (@jt_add A RA JA _ _ _ _ _ _ _ _ (@jt_const A RA JA (c p)) HJ) as HJ2. eapply jt_eq; [exact HJ2|..].
      * symmetry. apply HA; auto.
      * ring.
      * rewrite quad_linear by auto. ring.
Qed.
Lemma affine_ext f xs c : affine_at f xs c -> fwd_ext f xs.
Proof.
  intros [HL HA] ys HE. assert (Es : map (@sh A) ys = map (@sh A) xs) by (clear -HE; induction HE as [|x y xs ys [H _] _ IH]; cbn; congruence). destruct (HA ys Es) as [H1 H2]. destruct (HA xs eq_refl) as [_ H3]. split; [auto|].
  intros p Hp. rewrite (H2 p Hp), (H3 p Hp). f_equal. apply chain1_ext. intros a q Ha Hq. clear -HE Ha Hq. revert a Ha Hq. induction HE as [|x y xs ys [_ H] _ IH]; intros [|a] Ha Hq; cbn in *; try lia; auto. apply IH; auto. lia.
Qed.
Lemma sum_affine axes (x : nd A) : NoDup axes -> (forall d, In d axes -> d < ndim x) -> affine_at (op_sum axes) [x] (fun _ => 0).
Proof.
  intros Hnd Hlt. split; [intros p a q b s _ _ _ _ _; reflexivity|]. intros ys Es. destruct ys as [|y [|? ?]]; try discriminate. injection Es as Es. cbn [o_fwd op_sum nth np_sum sh]. unfold ndim. rewrite Es. split; [reflexivity|].
  intros p Hp. rewrite add0. unfold chain1, sumn. cbn [length seq sumL nth op_sum o_d]. rewrite add0r. unfold ndim in *. cbn [np_sum at_ nth]. unfold ndim. rewrite Es.
  rewrite (@sum_weave A RA axes (sh x)) by auto. symmetry. rewrite (@sumL_single A RA _ (allix (permute (keep_pos (length (sh x)) axes) (sh x))) p).
  - apply sumL_ext. intros j Hj. rewrite weave_keep.
    + rewrite (proj2 (ixeqb_eq p p) eq_refl). ring.
    + rewrite (inb_length Hp). apply permute_length.
  - apply allix_NoDup.
  - apply allix_spec. exact Hp.
  - intros i Hi Hne. apply (@sumL_zero A RA). intros j Hj. apply allix_spec in Hi. rewrite weave_keep by (rewrite (inb_length Hi); apply permute_length). rewrite ixeqb_neq by auto. ring.
Qed.
Lemma index_affine g (xs : list (nd A)) : iop_wf g (map (@sh A) xs) -> affine_at (iop_op g) xs (fun _ => 0).
Proof.
  intros Hg. split; [intros p a q b s _ _ _ _ _; reflexivity|]. intros ys Es. split; [reflexivity|]. intros p Hp. cbn in Hp. destruct (Hg p Hp) as [G1 G2]. rewrite map_length in G1.
  rewrite add0. assert (HL : length ys = length xs) by (rewrite <- (map_length (@sh A) ys), Es, map_length; reflexivity).
  unfold iop_op at 1. cbn [o_fwd iop_fwd at_]. unfold chain1. unfold iop_op. cbn [o_d]. destruct (i_src g p) as [a q] eqn:E. cbn [fst snd] in *. rewrite (@nth_map_in _ _ (@sh A) xs a nd0 []) in G2 by exact G1.
  unfold sumn. symmetry. rewrite (@sumL_single A RA _ (seq 0 (length xs)) a).
  - rewrite (@sumL_single A RA _ (allix (sh (nth a xs nd0))) q).
    + rewrite Nat.eqb_refl, (proj2 (ixeqb_eq q q) eq_refl). cbn [andb]. rewrite mul1. reflexivity.
    + apply allix_NoDup.
    + apply allix_spec. exact G2.
    + intros r _ Hne. rewrite (@ixeqb_neq q r) by auto. rewrite andb_false_r. ring.
  - apply seq_NoDup.
  - apply in_seq. lia.
  - intros b _ Hne. apply (@sumL_zero A RA). intros r _. assert (Eb : Nat.eqb a b = false) by (apply Nat.eqb_neq; auto). rewrite Eb. cbn [andb]. ring.
Qed.

(* ---- elementwise functions ---- *)
(* phi is twice differentiable at vs with first derivatives d vs and second derivatives h vs: the chain rule holds along every curve *)
Definition smooth_fun (phi : list A -> A) (d : list A -> nat -> A) (h : list A -> nat -> nat -> A) (vs : list A) : Prop :=
  let m := length vs in forall (c : nat -> R -> A) (D H : nat -> A), (forall a, a < m -> jt (c a) (nth a vs 0) (D a) (H a)) ->
  jt (fun t => phi (map (fun a => c a t) (seq 0 m))) (phi vs) (sumn m (fun a => d vs a * D a)) (sumn m (fun a => d vs a * H a) + sumn m (fun a => sumn m (fun b => h vs a b * (D a * D b)))).
(* specification: P holds at the operands of every output element *)
Definition ew_dom (P : list A -> Prop) (xs : list (nd A)) : Prop := forall p, inb p (ew_shape xs) -> P (ew_vals xs p).
Lemma ew_bto (xs : list (nd A)) : bshapes (map (@sh A) xs) <> None -> forall a, a < length xs -> bto (sh (nth a xs nd0)) (ew_shape xs).
Proof.
  intros HB a Ha. unfold ew_shape. destruct (bshapes (map (@sh A) xs)) as [s|] eqn:E; [|congruence]. destruct (bshapes_spec _ E) as [Hs _]. apply Hs. apply in_map. apply nth_In. exact Ha.
Qed.
Lemma ew_vals_nth (xs : list (nd A)) p a : a < length xs -> nth a (ew_vals xs p) 0 = at_ (nth a xs nd0) (bproj (sh (nth a xs nd0)) p).
Proof. intros Ha. unfold ew_vals. rewrite (@nth_map_in _ _ (fun x => at_ x (bproj (sh x) p)) xs a nd0 0) by exact Ha. reflexivity. Qed.
Lemma ew_vals_seq (ys : list (nd A)) p : ew_vals ys p = map (fun a => at_ (nth a ys nd0) (bproj (sh (nth a ys nd0)) p)) (seq 0 (length ys)).
Proof.
  unfold ew_vals. rewrite <- (map_map (fun a => nth a ys nd0) (fun x => at_ x (bproj (sh x) p))). f_equal. induction ys as [|y ys IH]; cbn; [reflexivity|]. f_equal. rewrite IH at 1. rewrite <- seq_shift, map_map. reflexivity.
Qed.
Lemma ew_chain phi d h (xs : list (nd A)) p v : bshapes (map (@sh A) xs) <> None -> inb p (ew_shape xs) ->
  chain1 (ew_op phi d h) xs p v = sumn (length xs) (fun a => d (ew_vals xs p) a * v a (bproj (sh (nth a xs nd0)) p)).
Proof.
  intros HB Hp. unfold chain1. apply sumn_ext. intros a Ha. cbn [ew_op o_d]. rewrite (@sumL_single A RA _ _ (bproj (sh (nth a xs nd0)) p)).
  - rewrite (proj2 (ixeqb_eq _ _) eq_refl). reflexivity.
  - apply allix_NoDup.
  - apply allix_spec. apply bproj_inb with (s := ew_shape xs); auto. apply ew_bto; auto.
  - intros q _ Hne. rewrite ixeqb_neq by auto. ring.
Qed.
Lemma ew_quad phi d h (xs : list (nd A)) p u v : bshapes (map (@sh A) xs) <> None -> inb p (ew_shape xs) ->
  quad (ew_op phi d h) xs p u v = sumn (length xs) (fun a => sumn (length xs) (fun b => h (ew_vals xs p) a b * (u a (bproj (sh (nth a xs nd0)) p) * v b (bproj (sh (nth b xs nd0)) p)))).
Proof.
  intros HB Hp. unfold quad. apply sumn_ext. intros a Ha. cbn [ew_op o_h]. rewrite (@sumL_single A RA _ _ (bproj (sh (nth a xs nd0)) p)).
  - rewrite (proj2 (ixeqb_eq _ _) eq_refl). cbn [andb]. apply sumn_ext. intros b Hb. rewrite (@sumL_single A RA _ _ (bproj (sh (nth b xs nd0)) p)).
    + rewrite (proj2 (ixeqb_eq _ _) eq_refl). reflexivity.
    + apply allix_NoDup.
    + apply allix_spec. apply bproj_inb with (s := ew_shape xs); auto. apply ew_bto; auto.
    + intros q _ Hne. rewrite ixeqb_neq by auto. ring.
  - apply allix_NoDup.
  - apply allix_spec. apply bproj_inb with (s := ew_shape xs); auto. apply ew_bto; auto.
  - intros q _ Hne. rewrite (@ixeqb_neq q) by auto. cbn [andb]. apply (@sumn_zero A RA). intros b Hb. apply (@sumL_zero A RA). intros r _. ring.
Qed.
Lemma ew_smooth phi d h (xs : list (nd A)) : bshapes (map (@sh A) xs) <> None -> ew_dom (smooth_fun phi d h) xs -> smooth (ew_op phi d h) xs.
Proof.
  intros HB HP D H W HC. pose proof (curves_shapes HC) as HS. split.
  - generalize HS. apply near_imp. intros t E. cbn [ew_op o_fwd sh]. unfold ew_shape. rewrite E. reflexivity.
  - intros p Hp. cbn [ew_op o_fwd sh] in Hp. rewrite ew_chain, ew_chain, ew_quad by auto. cbn [ew_op o_fwd at_].
    pose proof (HP p Hp) as HF. unfold smooth_fun in HF. assert (HL : length (ew_vals xs p) = length xs) by (unfold ew_vals; apply map_length). rewrite HL in HF.
    specialize (HF (fun a t => at_ (nth a (W t) nd0) (bproj (sh (nth a xs nd0)) p)) (fun a => D a (bproj (sh (nth a xs nd0)) p)) (fun a => H a (bproj (sh (nth a xs nd0)) p))).
    eapply jt_ext; [|apply HF].
    + generalize HS. apply near_imp. intros t E. f_equal. rewrite ew_vals_seq. assert (HLt : length (W t) = length xs) by (rewrite <- (map_length (@sh A) (W t)), E, map_length; reflexivity). rewrite HLt. apply map_ext_in. intros a Ha. apply in_seq in Ha.
      assert (Es : sh (nth a (W t) nd0) = sh (nth a xs nd0)) by (rewrite <- !(@nth_map_in _ _ (@sh A) _ a nd0 []) by lia; rewrite E; reflexivity). rewrite Es. reflexivity.
    + intros a Ha. rewrite ew_vals_nth by exact Ha. apply (curves_at HC); auto. apply bproj_inb with (s := ew_shape xs); auto. apply ew_bto; auto.
Qed.
Lemma ew_ext phi d h (xs : list (nd A)) : bshapes (map (@sh A) xs) <> None -> fwd_ext (ew_op phi d h) xs.
Proof.
  intros HB ys HE. assert (Es : map (@sh A) ys = map (@sh A) xs) by (clear -HE; induction HE as [|x y xs ys [H _] _ IH]; cbn; congruence). cbn [ew_op o_fwd]. unfold ew_shape. rewrite Es. split; cbn [sh at_]; [reflexivity|].
  intros p Hp. fold (ew_shape xs) in Hp. f_equal. assert (HBt : forall x, In x xs -> bto (sh x) (ew_shape xs)) by (intros x Hx; apply (In_nth _ _ nd0) in Hx; destruct Hx as (a & Ha & <-); apply ew_bto; auto).
  clear -HE Hp HBt. revert HBt. generalize (ew_shape xs) Hp. clear Hp. intros s Hp. unfold ew_vals. induction HE as [|x y xs ys [H1 H2] _ IH]; intros HBt; cbn; [reflexivity|]. rewrite <- H1. f_equal.
  - apply H2. apply bproj_inb with (s := s); auto. apply HBt. left. reflexivity.
  - apply IH. intros z Hz. apply HBt. right. exact Hz.
Qed.
End Ops.
