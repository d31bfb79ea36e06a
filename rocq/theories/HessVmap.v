(* HessVmap.v : soundness of vmapped_jac_hessian_jac and get_jacobian_hessian_jacobian_trace. *)
From Verif Require Export HessLoc.
Set Implicit Arguments.

Lemma bsr_ex s : forall t u, (exists u0 u1, u = u0 ++ u1 /\ F1 s u0) -> (exists u0 u1, u = u0 ++ u1 /\ F1 t u0) -> exists r, bsr s t = Some r.
Proof.
  induction s as [|a s IH]; intros t u (u0 & u1 & -> & Hu) (v0 & v1 & Hv' & Hv); [eexists; reflexivity|].
  destruct t as [|b t]; [eexists; reflexivity|]. cbn [bsr].
  inversion Hu as [|? c ? u0' Hac Hu' E1 E2]; subst. inversion Hv as [|? c' ? v0' Hbc Hv'' E1 E2]; subst. cbn in Hv'. injection Hv' as <- Hv'.
  destruct (IH t (u0' ++ u1)) as (r' & ->); [eauto|eauto|].
  destruct (Nat.eqb_spec a b); [eexists; reflexivity|]. destruct (Nat.eqb_spec a 1); [eexists; reflexivity|]. destruct (Nat.eqb_spec b 1); [eexists; reflexivity|]. lia.
Qed.
Lemma bshape2_ex s t u : bto s u -> bto t u -> exists r, bshape2 s t = Some r.
Proof. intros H1 H2. apply bto_rev in H1, H2. destruct (bsr_ex H1 H2) as (r & E). unfold bshape2. rewrite E. eexists. reflexivity. Qed.
Lemma bshapes_ex l u : (forall s, In s l -> bto s u) -> exists r, bshapes l = Some r.
Proof.
  unfold bshapes. intros H. assert (G : forall l acc, bto acc u -> (forall s, In s l -> bto s u) ->
     exists r, fold_left (fun acc s => match acc with None => None | Some t => bshape2 t s end) l (Some acc) = Some r).
  { clear. induction l as [|s l IH]; intros acc Ha Hl; cbn [fold_left]; [eexists; reflexivity|].
    destruct (@bshape2_ex acc s u) as (r & E); [auto|apply Hl; cbn; auto|]. rewrite E. apply IH; [eapply bshape2_lub; eauto; apply Hl; cbn; auto|intros; apply Hl; cbn; auto]. }
  apply G; auto. apply bto_nil.
Qed.

Section Vm.
Context {A : Type} {RA : CRing A}.
Add Ring Aring_Vm : (@rth A RA).
Open Scope cr_scope.

Lemma batched_brd f mg (args : list (lapl A)) axs extra eaxs : merge_ok mg (length args) (length extra) ->
  length axs = length args -> length eaxs = length extra -> batched f (mg _ axs eaxs) (mg _ (xs_of args) extra) ->
  exists brd, brdcast_shape (leaves_of args axs extra eaxs) = Some brd.
Proof.
  intros Hm H1 H2 (Hl & B & C & HB & _). destruct (merge_layout Hm) as (lay & Hp & E & Hlay).
  assert (Hlx : length (xs_of args) = length args) by apply xs_length.
  rewrite (Hlay _ [] axs eaxs) in * by auto. rewrite (Hlay _ nd0 (xs_of args) extra) in * by auto. rewrite map2_map in HB.
  unfold brdcast_shape. rewrite leaves_shapes by auto. apply bshapes_ex with (u := B). apply bshapes_spec in HB. destruct HB as [HB _].
  intros s Hs. apply HB. apply in_map_iff in Hs. destruct Hs as (j & <- & Hj). apply in_seq in Hj.
  apply in_map_iff. exists j. split; [reflexivity|]. apply (is_perm_In j Hp). lia.
Qed.
(* every batch element has slices *)
Lemma slices_exist n (args : list (lapl A)) axs extra eaxs brd b : (forall a, In a args -> awf n a) -> axes_ok axs (xs_of args) -> axes_ok eaxs extra ->
  brdcast_shape (leaves_of args axs extra eaxs) = Some brd -> inb b brd ->
  exists args' es, sliced n args axs b args' /\ mslices eaxs extra b es.
Proof.
  intros Hw Hax Hea Hbrd Hb. pose proof Hax as [La Hax2]. pose proof Hea as [Le _]. rewrite xs_length in La, Hax2.
  pose proof (@leaves_ok _ _ args axs extra eaxs Hax Hea) as Hok. set (ki := keep_idx (leaves_of args axs extra eaxs) brd).
  exists (map2 (fun a ax => slice_lapl (leaf_seq (leaves_of args axs extra eaxs) brd (sh (lx a), ax))
        (map (fun i => nth i (vmap_sequence (sh (jdata (ljac a))) brd (jac_axes ax)) None) ki) ax (permute ki b) a) args axs),
   (map2 (fun e ax => slice_seq (leaf_seq (leaves_of args axs extra eaxs) brd (sh e, ax)) (permute ki b) (squeeze ax e)) extra eaxs).
  split.
  - split; [apply map2_len; lia|]. intros a Ha. rewrite map2_nth with (dx := la0) (dy := []) by lia.
    apply slice_lapl_of; auto; [apply leaves_arg; auto|apply Hok, leaves_arg; auto|apply Hw, nth_In; auto].
  - split; [apply map2_len; lia|]. split; [auto|]. intros a Ha. rewrite map2_nth with (dx := nd0) (dy := []) by lia.
    apply eqa_sym, eql_eqa, leaf_slice; auto; [apply leaves_extra; auto|apply Hok, leaves_extra; auto].
Qed.
Lemma hspec_slice n f mg (args : list (lapl A)) axs extra eaxs brd : merge_ok mg (length args) (length extra) ->
  axes_ok axs (xs_of args) -> axes_ok eaxs extra -> batched f (mg _ axs eaxs) (mg _ (xs_of args) extra) ->
  brdcast_shape (leaves_of args axs extra eaxs) = Some brd ->
  let fm := merged f mg (length args) extra in
  exists C, sh (o_fwd fm (xs_of args)) = brd ++ C /\
  forall b c args' es, inb b brd -> inb c C -> sliced n args axs b args' -> mslices eaxs extra b es ->
    let fb := merged f mg (length args) es in
    sh (o_fwd fb (xs_of args')) = C /\ hspec n fm args (b ++ c) = hspec n fb args' c.
Proof.
  intros Hm Hax Hea HB Hbrd fm. pose proof Hax as [La Hax2]. pose proof Hea as [Le _]. rewrite xs_length in La, Hax2.
  destruct (@merged_batched _ _ f mg args axs extra eaxs brd Hm La Le HB Hbrd) as (C & HC & HH). fold fm in HC, HH.
  exists C. split; [exact HC|]. intros b c args' es Hb Hc S1 S2 fb.
  destruct (HH b (xs_of args') es Hb (@sliced_mslices _ _ n args axs b args' La S1) S2) as [G1 G2]. split; [exact G1|].
  unfold hspec. apply sumn_ext. intros i Hi. destruct S1 as [Ln S1].
  assert (Hshp : forall a, (a < length args)%nat -> sh (lx (nth a args' la0)) = permute (sax (ndim (nth a (xs_of args) nd0)) (nth a axs [])) (sh (nth a (xs_of args) nd0))).
  { intros a Ha. rewrite xs_nth by lia. destruct (S1 a Ha) as (E & _). destruct E as [E _]. rewrite <- E. reflexivity. }
  rewrite (@quad_batched _ _ fm fb args axs brd (xs_of args') b c).
  - apply quad_ext; rewrite xs_length, Ln; intros a q Ha Hq; rewrite xs_nth in Hq by lia; rewrite xs_nth by lia; destruct (S1 a Ha) as (_ & _ & _ & _ & E); symmetry; apply E;
      rewrite (Hshp a Ha) in Hq; rewrite xs_nth in Hq by auto; exact Hq.
  - rewrite xs_length. exact Ln.
  - intros a Ha. rewrite (xs_nth args') by lia. apply Hshp; auto.
  - intros a Ha. rewrite xs_nth by auto. apply (@brd_bto _ _ _ Hbrd (@leaves_arg _ _ args axs extra eaxs a La Ha)).
  - exact Hb.
  - intros a q a' q' Ha Ha' Hq Hq'. apply G2; auto.
Qed.

(* ---------- the index array of one batch element ---------- *)
Lemma mval_dec (a : lapl A) ax b z : mval a ax b z \/ ~ mval a ax b z.
Proof.
  unfold mval. set (s := sh (lx a)).
  destruct (existsb (fun r => existsb (fun j => Z.eqb (at_ (mask (ljac a)) (r :: wv s ax b j)) z) (allix (permute (sax (length s) ax) s))) (seq 0 (rows (jdata (ljac a))))) eqn:E.
  - left. apply existsb_exists in E. destruct E as (r & Hr & E). apply existsb_exists in E. destruct E as (j & Hj & E). apply in_seq in Hr. apply allix_spec in Hj. apply Z.eqb_eq in E.
    exists r, j. split; [lia|auto].
  - right. intros (r & j & Hr & Hj & Hz). assert (existsb (fun r => existsb (fun j => Z.eqb (at_ (mask (ljac a)) (r :: wv s ax b j)) z) (allix (permute (sax (length s) ax) s))) (seq 0 (rows (jdata (ljac a)))) = true); [|congruence].
    apply existsb_exists. exists r. split; [apply in_seq; lia|]. apply existsb_exists. exists j. split; [apply allix_spec; auto|]. apply Z.eqb_eq; auto.
Qed.
Lemma wv_proj s ax brda b j : bto (reduced_shape s ax) brda -> (length brda <= length b)%nat -> wv s ax (bproj brda b) j = wv s ax b j.
Proof. intros H1 H2. unfold wv. rewrite reduced_sax. rewrite bproj_comp by auto. reflexivity. Qed.

(* Everything the location theorems need to know about the index array. *)
Record loc_facts (n : nat) (inter : bool) (args args' : list (lapl A)) (o : nd Z) (R : nat) : Prop := {
  lf_ok : idx_ok n R o;
  lf_union : inter = false -> forall i, (i < n)%nat -> (forall k, (k < R)%nat -> sgo o k <> Some i) ->
    forall a q, (a < length args')%nat -> inb q (sh (lx (nth a args' la0))) -> jent (ljac (nth a args' la0)) i q = 0;
  lf_inter : inter = true -> forall i, (i < n)%nat -> (forall k, (k < R)%nat -> sgo o k <> Some i) ->
    exists a, (a < length args')%nat /\ forall q, inb q (sh (lx (nth a args' la0))) -> jent (ljac (nth a args' la0)) i q = 0;
  lf_dense_inter : inter = true -> forall a k, (a < length args')%nat -> (k < R)%nat -> weak (ljac (nth a args' la0)) = false -> (0 <= at_ o [k])%Z ->
    (at_ o [k] < Z.of_nat (rows (jdata (ljac (nth a args' la0)))))%Z;
  lf_dense_union : inter = false -> forall a k q, (a < length args')%nat -> (k < R)%nat -> weak (ljac (nth a args' la0)) = false -> rows (jdata (ljac (nth a args' la0))) = n ->
    inb q (sh (lx (nth a args' la0))) -> (0 <= at_ o [k] < Z.of_nat n)%Z }.

(* an index array that was not discarded has at most th rows *)
Lemma find_out_idx_small (args : list (lapl A)) axs fl th o : find_out_idx args axs fl th = Some (Some o, false) -> (Z.of_nat (rows o) <= th)%Z.
Proof.
  unfold find_out_idx. destruct (negb (any_weak args)); [discriminate|]. match goal with |- context [bind ?x _] => destruct x as [brd|]; [|discriminate] end. cbn [bind].
  destruct (allix _) eqn:E; [discriminate|]. intros H. injection H as <- H. apply orb_false_iff in H. destruct H as [_ H]. unfold rows. cbn [sh hd]. apply Z.ltb_ge in H. exact H.
Qed.
Theorem loc_facts_ok n args axs extra eaxs fl th o dense brd b args' : args <> [] -> (forall a, In a args -> awf n a) -> axes_ok axs (xs_of args) -> axes_ok eaxs extra ->
  find_out_idx args axs fl th = Some (Some o, dense) -> brdcast_shape (leaves_of args axs extra eaxs) = Some brd ->
  let ki := keep_idx (leaves_of args axs extra eaxs) brd in
  ndim o = S (length ki) -> inb b brd -> sliced n args axs b args' ->
  loc_facts n (has LINEAR_IN_ONE fl) args args' (slice_idx (length ki) (permute ki b) o) (rows o) /\
  (has LINEAR_IN_ONE fl = false -> dense = false -> forall a k q, (a < length args')%nat -> (k < rows o)%nat -> weak (ljac (nth a args' la0)) = false -> (th <= Z.of_nat (rows (jdata (ljac (nth a args' la0)))))%Z ->
    inb q (sh (lx (nth a args' la0))) -> (0 <= at_ (slice_idx (length ki) (permute ki b) o) [k] < Z.of_nat (rows (jdata (ljac (nth a args' la0)))))%Z).
Proof.
  intros Hne Hw Hax Hea Hf Hbrd ki Hnd Hb [Ls Hs].
  pose proof Hax as [La Hax2]. rewrite xs_length in La, Hax2.
  destruct (@find_out_idx_spec _ _ n args axs fl th o dense Hne Hw Hax Hf) as (_ & brda & Lf & HA & Hso & HN & HL). cbn zeta in *. set (kia := keep_idx (mleaves args axs) brda) in *.
  assert (Hlk : length kia = length ki).
  { unfold ndim in Hnd. rewrite Hso in Hnd. cbn [length] in Hnd. rewrite permute_length in Hnd. lia. }
  destruct (@ki_align _ _ n args axs extra eaxs brda brd Hax Hea Hw HA Hbrd Hlk) as [Hbt Hpm]. specialize (Hpm b Hb). fold kia ki in Hpm.
  set (ba := bproj brda b) in *. assert (Hba : inb ba brda) by (unfold ba; eapply bproj_inb; eauto).
  destruct (HL ba Hba) as (L1 & L2 & L3 & L4). pose proof (bto_length Hbt) as Hlb. pose proof (inb_length Hb) as Hlb2.
  assert (Hkb : inb (permute kia ba) (permute kia brda)) by (apply permute_inb; auto; intros d Hd; apply keep_idx_In in Hd; auto).
  destruct (@slice_idx_spec o (rows o) (permute kia brda) (permute kia ba) Hso Hkb) as [O1 O2]. rewrite permute_length in O1, O2.
  rewrite Hlk in O1, O2. rewrite Hpm in O1, O2. set (ob := slice_idx (length ki) (permute ki b) o) in *.
  assert (OV : forall r, (r < rows o)%nat -> at_ ob [r] = nth r (Lf ba) (-1)%Z) by (intros r Hr; rewrite O2 by auto; rewrite <- Hpm; apply L3; auto).
  (* values lie in range *)
  assert (Hred : forall a, (a < length args)%nat -> bto (reduced_shape (sh (lx (nth a args la0))) (nth a axs [])) brda).
  { intros a Ha. destruct (@mleaves_nth _ _ n args axs a La Hw Ha) as (k & Hk). pose proof (@brd_bto _ _ _ HA Hk) as Hq. cbn [fst snd] in Hq. rewrite reduced_jac in Hq. exact Hq. }
  assert (Hmr : forall a z, (a < length args)%nat -> mval (nth a args la0) (nth a axs []) ba z -> (z < Z.of_nat n)%Z /\ (weak (ljac (nth a args la0)) = false -> (z < Z.of_nat (rows (jdata (ljac (nth a args la0)))))%Z)).
  { intros a z Ha (r & j & Hr & Hj & E). destruct (Hw (nth a args la0)) as [W _]; [apply nth_In; auto|].
    pose proof (@wv_inb _ _ _ ba j (Hred a Ha) Hba Hj) as Hwv. pose proof (mask_range W Hr Hwv) as Hrg. rewrite E in Hrg. split; [lia|].
    intros Ewk. unfold weak in Ewk. unfold mask in E. destruct (jidx (ljac (nth a args la0))); [discriminate|]. cbn in E. lia. }
  assert (Hz : forall r, (r < rows o)%nat -> at_ ob [r] = (-1)%Z \/ (In (at_ ob [r]) (Lf ba) /\ (r < length (Lf ba))%nat)).
  { intros r Hr. rewrite OV by auto. destruct (Nat.lt_ge_cases r (length (Lf ba))); [right; split; auto; apply nth_In; auto|left; apply nth_overflow; auto]. }
  assert (Hrange : forall z, In z (Lf ba) -> (0 <= z < Z.of_nat n)%Z).
  { intros z HzL. apply L4 in HzL. destruct HzL as [H0 H1]. destruct (has LINEAR_IN_ONE fl).
    - assert (Ha : (0 < length args)%nat) by (destruct args; [congruence|cbn; lia]). destruct (Hmr 0%nat z Ha (H1 0%nat Ha)). lia.
    - destruct H1 as (a & Ha & H1). destruct (Hmr a z Ha H1). lia. }
  (* a missing input is not in the list *)
  assert (Hmiss : forall i, (i < n)%nat -> (forall k, (k < rows o)%nat -> sgo ob k <> Some i) -> ~ out_set (has LINEAR_IN_ONE fl) args axs ba (Z.of_nat i)).
  { intros i Hi Hk HO. apply L4 in HO. apply (In_nth _ _ (-1)%Z) in HO. destruct HO as (k & Hk1 & Hk2). apply (Hk k); [lia|]. unfold sgo. rewrite OV by lia. rewrite Hk2.
    destruct (Z.leb_spec 0 (Z.of_nat i)); [|lia]. rewrite Nat2Z.id. reflexivity. }
  assert (Hjz : forall a i, (a < length args)%nat -> ~ mval (nth a args la0) (nth a axs []) ba (Z.of_nat i) -> forall q, inb q (sh (lx (nth a args' la0))) -> jent (ljac (nth a args' la0)) i q = 0).
  { intros a i Ha Hnm q Hq. destruct (Hs a Ha) as (E & _ & _ & _ & EJ & _). destruct E as [E _]. rewrite <- E in Hq. cbn [bslice sh] in Hq. unfold ndim in Hq. rewrite EJ by exact Hq.
    rewrite <- (@wv_proj _ _ brda b q (Hred a Ha)) by lia. fold ba. apply (@mval_jent _ _ n); auto. apply Hw, nth_In; auto. }
  split; cycle 1.
  { (* a dense Jacobian with at least th rows: its rows are exactly the listed indices *)
    intros Ei -> a k q Ha Hk Hwk Hrw Hq. rewrite Ls in Ha. destruct (Hs a Ha) as (E & _ & Ewk & Erw & _). rewrite Ewk in Hwk. rewrite Erw in *. destruct E as [E _]. rewrite <- E in Hq. cbn [bslice sh] in Hq. unfold ndim in Hq.
    set (ra := rows (jdata (ljac (nth a args la0)))) in *. pose proof (@find_out_idx_small args axs fl th o Hf) as Hsm.
    assert (Hall : incl (map Z.of_nat (seq 0 ra)) (Lf ba)).
    { intros z Hzz. apply in_map_iff in Hzz. destruct Hzz as (i & <- & Hi). apply in_seq in Hi. apply L4. split; [lia|]. rewrite Ei. exists a. split; auto. exists i, q. split; [lia|]. split; [exact Hq|].
      unfold mask, weak in *. destruct (jidx (ljac (nth a args la0))); [discriminate|]. reflexivity. }
    assert (Hnd2 : NoDup (map Z.of_nat (seq 0 ra))) by (apply FinFun.Injective_map_NoDup; [intros x y; lia|apply seq_NoDup]).
    pose proof (NoDup_incl_length Hnd2 Hall) as Hlen. rewrite map_length, seq_length in Hlen.
    rewrite OV by auto. assert (HI : In (nth k (Lf ba) (-1)%Z) (map Z.of_nat (seq 0 ra))).
    { apply (@NoDup_length_incl _ _ (Lf ba) Hnd2); [rewrite map_length, seq_length; lia|exact Hall|]. apply nth_In. lia. }
    apply in_map_iff in HI. destruct HI as (i & <- & Hi). apply in_seq in Hi. lia. }
  constructor.
  - split; [exact O1|]. split.
    + intros r Hr. destruct (Hz r Hr) as [->|[HzL _]]; [|apply Hrange in HzL]; lia.
    + intros r r' Hr Hr' Hp E. destruct (Hz r Hr) as [Ez|[_ Hl1]]; [lia|]. destruct (Hz r' Hr') as [Ez|[_ Hl2]]; [lia|]. rewrite !OV in E by auto.
      apply (proj1 (NoDup_nth (Lf ba) (-1)%Z) L1); auto.
  - intros Ei i Hi Hk a q Ha Hq. rewrite Ls in Ha. apply (Hjz a i Ha); auto. intros Hmv. apply (Hmiss i Hi Hk). split; [lia|]. rewrite Ei. exists a. auto.
  - intros Ei i Hi Hk. specialize (Hmiss i Hi Hk). unfold out_set in Hmiss. rewrite Ei in Hmiss.
    assert (Hex : exists a, (a < length args)%nat /\ ~ mval (nth a args la0) (nth a axs []) ba (Z.of_nat i)).
    { assert (G : forall m, (forall a, (a < m)%nat -> mval (nth a args la0) (nth a axs []) ba (Z.of_nat i)) \/ exists a, (a < m)%nat /\ ~ mval (nth a args la0) (nth a axs []) ba (Z.of_nat i)).
      { induction m as [|m IH]; [left; intros; lia|]. destruct IH as [IH|(a & Ha & IH)]; [|right; exists a; split; [lia|auto]].
        destruct (mval_dec (nth m args la0) (nth m axs []) ba (Z.of_nat i)); [left; intros a Ha; destruct (Nat.eq_dec a m); [subst; auto|apply IH; lia]|right; exists m; split; [lia|auto]]. }
      destruct (G (length args)) as [H|H]; auto. exfalso. apply Hmiss. split; [lia|auto]. }
    destruct Hex as (a & Ha & Hnm). exists a. rewrite Ls. split; auto.
  - intros Ei a k Ha Hk Hwk Hp. rewrite Ls in Ha. destruct (Hs a Ha) as (_ & _ & Ewk & Erw & _). rewrite Ewk in Hwk. rewrite Erw.
    destruct (Hz k Hk) as [Ez|[HzL _]]; [lia|]. apply L4 in HzL. unfold out_set in HzL. rewrite Ei in HzL. apply (Hmr a); auto. apply HzL; auto.
  - intros Ei a k q Ha Hk Hwk Hrw Hq. rewrite Ls in Ha. destruct (Hs a Ha) as (E & _ & Ewk & Erw & _). rewrite Ewk in Hwk. rewrite Erw in Hrw. destruct E as [E _]. rewrite <- E in Hq. cbn [bslice sh] in Hq. unfold ndim in Hq.
    (* all n inputs are listed, so nothing is padded *)
    assert (Hall : forall i, (i < n)%nat -> In (Z.of_nat i) (Lf ba)).
    { intros i Hi. apply L4. split; [lia|]. rewrite Ei. exists a. split; auto. exists i, q. split; [lia|]. split; [exact Hq|].
      unfold mask, weak in *. destruct (jidx (ljac (nth a args la0))); [discriminate|]. reflexivity. }
    assert (Hlen : (n <= length (Lf ba))%nat).
    { rewrite <- (seq_length n 0), <- (map_length Z.of_nat). apply NoDup_incl_length; [apply FinFun.Injective_map_NoDup; [intros x y; lia|apply seq_NoDup]|].
      intros z Hzz. apply in_map_iff in Hzz. destruct Hzz as (i & <- & Hi). apply in_seq in Hi. apply Hall. lia. }
    assert (Hub : (rows o <= n)%nat).
    { apply HN. intros b' Hb'. destruct (HL b' Hb') as (N1 & _ & _ & N4). rewrite <- (seq_length n 0), <- (map_length Z.of_nat (seq 0 n)). apply NoDup_incl_length; auto.
      intros z Hzz. apply N4 in Hzz. destruct Hzz as [H0 H1]. rewrite Ei in H1. destruct H1 as (a' & Ha' & H1). apply in_map_iff. exists (Z.to_nat z). split; [lia|]. apply in_seq.
      destruct H1 as (r & j & Hr & Hj & Ez). destruct (Hw (nth a' args la0)) as [W _]; [apply nth_In; auto|].
      pose proof (@wv_inb _ _ _ b' j (Hred a' Ha') Hb' Hj) as Hwv. pose proof (mask_range W Hr Hwv) as Hrg. rewrite Ez in Hrg. lia. }
    rewrite OV by auto. apply Hrange. apply nth_In. lia.
Qed.

(* ---------- batched evaluation, element by element ---------- *)
Theorem batched_eval_raw n f c2r fl custom mg dense_out args axs extra eaxs idx brd r :
  (forall a, In a args -> awf n a) -> axes_ok axs (xs_of args) -> axes_ok eaxs extra ->
  brdcast_shape (leaves_of args axs extra eaxs) = Some brd ->
  let ki := keep_idx (leaves_of args axs extra eaxs) brd in
  batched_eval f c2r fl custom mg dense_out args axs extra eaxs idx = Some r ->
  (forall o, idx = Some o -> ndim o = S (length ki)) /\
  let ht args' es b r0 := sliced n args axs b args' /\ mslices eaxs extra b es /\
       hess_transform f c2r fl custom mg dense_out args' es (option_map (slice_idx (length ki) (permute ki b)) idx) = Some r0 in
  (forall b, inb b brd -> exists args' es r0, ht args' es b r0 /\ forall c, at_ r (permute ki b ++ c) = at_ r0 c) /\
  (forall C b, inb b brd -> (forall b args' es r0, inb b brd -> ht args' es b r0 -> sh r0 = C) -> sh r = permute ki brd ++ C).
Proof.
  intros Hw Hax Hea Hbrd ki Hev.
  pose proof Hax as [La Hax2]. pose proof Hea as [Le _]. rewrite xs_length in La, Hax2.
  pose proof (@leaves_ok _ _ args axs extra eaxs Hax Hea) as Hok.
  unfold batched_eval in Hev. rewrite Hbrd in Hev. cbn [bind] in Hev. fold ki in Hev. set (kb := permute ki brd) in *.
  match type of Hev with (if ?g then _ else _) = _ => destruct g eqn:Eg; [discriminate|] end. split.
  { intros o ->. apply negb_false_iff, andb_true_iff in Eg. destruct Eg as [Eg _]. apply Nat.eqb_eq in Eg. exact Eg. }
  clear Eg. match type of Hev with context [map ?F (allix kb)] => set (at_b := F) in * end.
  destruct (sequence (map at_b (allix kb))) as [rs|] eqn:Es; [|discriminate]. cbn [bind] in Hev. injection Hev as <-.
  destruct (sequence_spec _ Es) as [Ls Hs]. rewrite map_length in Ls, Hs.
  cbn zeta. set (ht := fun args' es b r0 => sliced n args axs b args' /\ mslices eaxs extra b es /\
       hess_transform f c2r fl custom mg dense_out args' es (option_map (slice_idx (length ki) (permute ki b)) idx) = Some r0).
  assert (Hslice : forall b r0, inb b brd -> at_b (permute ki b) = Some r0 -> exists args' es, ht args' es b r0).
  { intros b r0 Hb Hr0. unfold at_b in Hr0.
    exists (map2 (fun a ax => slice_lapl (leaf_seq (leaves_of args axs extra eaxs) brd (sh (lx a), ax))
        (map (fun i => nth i (vmap_sequence (sh (jdata (ljac a))) brd (jac_axes ax)) None) ki) ax (permute ki b) a) args axs).
    exists (map2 (fun e ax => slice_seq (leaf_seq (leaves_of args axs extra eaxs) brd (sh e, ax)) (permute ki b) (squeeze ax e)) extra eaxs).
    split; [|split; [|exact Hr0]].
    - split; [apply map2_len; lia|]. intros a Ha. rewrite map2_nth with (dx := la0) (dy := []) by lia.
      apply slice_lapl_of; auto; [apply leaves_arg; auto|apply Hok, leaves_arg; auto|apply Hw, nth_In; auto].
    - split; [apply map2_len; lia|]. split; [auto|]. intros a Ha. rewrite map2_nth with (dx := nd0) (dy := []) by lia.
      apply eqa_sym, eql_eqa, leaf_slice; auto; [apply leaves_extra; auto|apply Hok, leaves_extra; auto]. }
  assert (Hone : forall k, (k < length brd)%nat -> ~ In k ki -> nth k brd 0%nat = 1%nat) by (intros k Hk Hn; apply (@brd_one _ _ k Hbrd Hok Hk Hn)).
  assert (Hkb : forall b, inb b brd -> inb (permute ki b) kb) by (intros b Hb; apply permute_inb; auto; intros d Hd; apply keep_idx_In in Hd; auto).
  assert (Hrs : forall b, inb b brd -> at_b (permute ki b) = Some (nth (ravel_ix kb (permute ki b)) rs nd0)).
  { intros b Hb. specialize (Hkb b Hb). specialize (Hs (ravel_ix kb (permute ki b)) nd0 None ltac:(rewrite allix_length; apply ravel_lt; auto)).
    rewrite nth_map_in with (dx := ([] : ix)) in Hs by (rewrite allix_length; apply ravel_lt; auto). rewrite nth_ravel_allix in Hs by auto. exact Hs. }
  split.
  - intros b Hb. destruct (Hslice b _ Hb (Hrs b Hb)) as (args' & es & Ht). exists args', es, (nth (ravel_ix kb (permute ki b)) rs nd0). split; [exact Ht|].
    intros c. cbn [at_]. pose proof (inb_length (Hkb b Hb)) as Lk. rewrite <- Lk. rewrite firstn_app, firstn_all, Nat.sub_diag, firstn_O, app_nil_r, skipn_app, skipn_all, Nat.sub_diag. reflexivity.
  - intros C b Hb HC. cbn [sh]. f_equal. destruct rs as [|r0 rs'].
    + exfalso. pose proof (ravel_lt (Hkb b Hb)) as Hlt. cbn [length] in Ls. rewrite allix_length in Ls. lia.
    + cbn [hd]. assert (Hz : exists b0, inb b0 kb /\ ravel_ix kb b0 = 0%nat).
      { exists (unravel_ix kb 0). pose proof (ravel_lt (Hkb b Hb)). split; [apply unravel_inb; lia|apply ravel_unravel; lia]. }
      destruct Hz as (b0 & Hb0 & Hr).
      destruct (@bexp_spec brd ki (keep_idx_filter _ _) Hone b0 Hb0) as [B1 B2].
      specialize (Hrs _ B1). rewrite B2, Hr in Hrs. cbn [nth] in Hrs. rewrite <- B2 in Hrs. destruct (Hslice _ _ B1 Hrs) as (args' & es & Ht). apply (HC _ _ _ _ B1 Ht).
Qed.

(* the same for functions with a scalar result per location; nothing is assumed about the Jacobians *)
Lemma batched_eval_scalar f c2r fl custom mg dense_out args axs extra eaxs idx brd r : axes_ok axs (xs_of args) -> axes_ok eaxs extra ->
  brdcast_shape (leaves_of args axs extra eaxs) = Some brd -> let ki := keep_idx (leaves_of args axs extra eaxs) brd in
  (forall args' es o r0, length args' = length args -> length es = length extra ->
     (forall a, (a < length args)%nat -> sh (lx (nth a args' la0)) = permute (sax (ndim (lx (nth a args la0))) (nth a axs [])) (sh (lx (nth a args la0)))) ->
     hess_transform f c2r fl custom mg dense_out args' es o = Some r0 -> sh r0 = []) ->
  batched_eval f c2r fl custom mg dense_out args axs extra eaxs idx = Some r ->
  (forall o, idx = Some o -> ndim o = S (length ki)) /\ sh r = permute ki brd.
Proof.
  intros Hax Hea Hbrd ki HC Hev.
  pose proof Hax as [La Hax2]. pose proof Hea as [Le _]. rewrite xs_length in La, Hax2.
  pose proof (@leaves_ok _ _ args axs extra eaxs Hax Hea) as Hok.
  unfold batched_eval in Hev. rewrite Hbrd in Hev. cbn [bind] in Hev. fold ki in Hev. set (kb := permute ki brd) in *.
  match type of Hev with (if ?g then _ else _) = _ => destruct g eqn:Eg; [discriminate|] end. split.
  { intros o ->. apply negb_false_iff, andb_true_iff in Eg. destruct Eg as [Eg _]. apply Nat.eqb_eq in Eg. exact Eg. }
  clear Eg. match type of Hev with context [map ?F (allix kb)] => set (at_b := F) in * end.
  destruct (sequence (map at_b (allix kb))) as [rs|] eqn:Es; [|discriminate]. cbn [bind] in Hev. injection Hev as <-. cbn [sh].
  destruct (sequence_spec _ Es) as [Ls Hs]. rewrite map_length in Ls, Hs.
  assert (HR : sh (hd nd0 rs) = []); [|rewrite HR; apply app_nil_r].
  destruct rs as [|r0 rs']; [reflexivity|]. cbn [hd]. assert (Hpos : (0 < prod kb)%nat) by (rewrite allix_length in Ls; cbn [length] in Ls; lia).
  assert (Hb0 : inb (unravel_ix kb 0) kb) by (apply unravel_inb; exact Hpos).
  assert (Hone : forall k, (k < length brd)%nat -> ~ In k ki -> nth k brd 0%nat = 1%nat) by (intros k Hk Hn; apply (@brd_one _ _ k Hbrd Hok Hk Hn)).
  destruct (@bexp_spec brd ki (keep_idx_filter _ _) Hone _ Hb0) as [B1 B2].
  specialize (Hs 0%nat nd0 None ltac:(rewrite allix_length; exact Hpos)). rewrite nth_map_in with (dx := ([] : ix)) in Hs by (rewrite allix_length; exact Hpos).
  rewrite nth_allix in Hs by exact Hpos. cbn [nth] in Hs. rewrite <- B2 in Hs. set (b := bexp ki (length brd) (unravel_ix kb 0)) in *. unfold at_b in Hs.
  eapply HC; [| | |exact Hs].
  - apply map2_len. lia.
  - apply map2_len. lia.
  - intros a Ha. rewrite map2_nth with (dx := la0) (dy := []) by lia. cbn [slice_lapl lx].
    assert (HE : eqa (bslice (nth a axs []) b (lx (nth a args la0))) (slice_seq (leaf_seq (leaves_of args axs extra eaxs) brd (sh (lx (nth a args la0)), nth a axs [])) (permute ki b) (squeeze (nth a axs []) (lx (nth a args la0)))))
      by (apply eqa_sym, eql_eqa, leaf_slice; auto; [apply leaves_arg; auto|apply Hok, leaves_arg; auto]).
    destruct HE as [E _].
    rewrite <- E. reflexivity.
Qed.

Lemma has_mono f g fl : Z.land f g = g -> has f fl = true -> has g fl = true.
Proof. unfold has. intros H E. apply Z.eqb_eq in E. apply Z.eqb_eq. rewrite <- H at 1. rewrite Z.land_assoc, E. exact H. Qed.
Lemma has_dot_mult fl : has MULTIPLICATION fl = false -> has DOT_PRODUCT fl = false.
Proof. intros H. destruct (has DOT_PRODUCT fl) eqn:E; auto. apply (@has_mono _ MULTIPLICATION) in E; [congruence|reflexivity]. Qed.
Lemma has_mult_one fl : has MULTIPLICATION fl = true -> has LINEAR_IN_ONE fl = true.
Proof. apply has_mono. reflexivity. Qed.

(* ---------- densified arguments ---------- *)
Lemma args_dense_spec n (args d : list (lapl A)) : (0 < n)%nat -> (forall a, In a args -> awf n a) -> args_dense args = Some d ->
  length d = length args /\ xs_of d = xs_of args /\ (forall a, In a d -> awf n a) /\
  forall a i q, (a < length args)%nat -> inb q (sh (lx (nth a args la0))) -> jent (ljac (nth a d la0)) i q = jent (ljac (nth a args la0)) i q.
Proof.
  intros Hn Hw H. unfold args_dense in H. destruct (sequence_spec _ H) as [Hl Hs]. rewrite map_length in Hl, Hs. split; [exact Hl|].
  assert (HE : forall a, (a < length args)%nat -> lx (nth a d la0) = lx (nth a args la0) /\ awf n (nth a d la0) /\
     forall i q, inb q (sh (lx (nth a args la0))) -> jent (ljac (nth a d la0)) i q = jent (ljac (nth a args la0)) i q).
  { intros a Ha. specialize (Hs a la0 None Ha). rewrite nth_map_in with (dx := la0) in Hs by auto. destruct (Hw (nth a args la0)) as [W W2]; [apply nth_In; auto|].
    set (x := nth a args la0) in *. unfold lapl_dense in Hs. destruct (as_dense (ljac x)) as [J'|] eqn:EJ; [|discriminate]. cbn [bind] in Hs. injection Hs as <-. cbn [lx ljac llap].
    split; [reflexivity|].
    assert (Hne : nonempty (ljac x)).
    { unfold nonempty. unfold as_dense, dense_array, max_n in EJ. destruct (jidx (ljac x)) as [m|] eqn:Em; auto. destruct (flat m) as [|z l] eqn:Ef; [discriminate|].
      unfold flat in Ef. destruct (allix (sh m)) as [|i0 l0] eqn:Ea; [discriminate|]. exists i0. apply allix_spec. rewrite Ea. cbn; auto. }
    destruct (as_dense_spec W Hne Hn) as (J2 & E2 & _ & W3 & HJ). rewrite EJ in E2. injection E2 as <-. split; [split; [exact W3|exact W2]|exact HJ]. }
  split; [|split].
  - unfold xs_of. apply nth_ext with (d := nd0) (d' := nd0); [rewrite !map_length; auto|]. rewrite map_length. intros a Ha.
    rewrite nth_map_in with (dx := la0) by auto. rewrite nth_map_in with (dx := la0) by lia. apply HE. lia.
  - intros a Ha. apply (In_nth _ _ la0) in Ha. destruct Ha as (k & Hk & <-). apply HE. lia.
  - intros a i q Ha Hq. apply HE; auto.
Qed.
Lemma hspec_dense n f (args d : list (lapl A)) p : length d = length args -> xs_of d = xs_of args ->
  (forall a i q, (a < length args)%nat -> inb q (sh (lx (nth a args la0))) -> jent (ljac (nth a d la0)) i q = jent (ljac (nth a args la0)) i q) ->
  hspec n f d p = hspec n f args p.
Proof.
  intros Hl Hx HJ. unfold hspec. apply sumn_ext. intros i Hi. rewrite Hx. apply quad_ext; rewrite xs_length; intros a q Ha Hq; rewrite xs_nth in Hq by auto; apply HJ; auto.
Qed.

(* the result r (zeros(()) or the full array) is correct *)
Definition jhj_ok (n : nat) (fm : op A) (args : list (lapl A)) (r : nd A) : Prop :=
  let so := sh (o_fwd fm (xs_of args)) in
  bto (sh r) so /\ forall p, inb p so -> at_ r (bproj (sh r) p) = hspec n fm args p.

Section Final.
(* the assumptions shared by all second-order theorems *)
Record setup (n : nat) (f : op A) (mg : mergefn) (args : list (lapl A)) (axs : list (list nat)) (extra : list (nd A)) (eaxs : list (list nat)) : Prop := {
  su_n : (0 < n)%nat; su_args : args <> []; su_wf : forall a, In a args -> awf n a; su_mg : merge_ok mg (length args) (length extra);
  su_ax : axes_ok axs (xs_of args); su_eax : axes_ok eaxs extra; su_b : batched f (mg _ axs eaxs) (mg _ (xs_of args) extra) }.
Lemma setup_dense n f mg args axs extra eaxs d : setup n f mg args axs extra eaxs -> args_dense args = Some d -> setup n f mg d axs extra eaxs.
Proof.
  intros [H1 H2 H3 H4 H5 H6 H7] E. destruct (@args_dense_spec n args d H1 H3 E) as (L & X & W & _). constructor; rewrite ?L, ?X; auto. intros ->. destruct args; [congruence|discriminate L].
Qed.
Lemma eval_final n f c2r fl custom mg dense_out args axs extra eaxs idx r : setup n f mg args axs extra eaxs ->
  (forall brd, brdcast_shape (leaves_of args axs extra eaxs) = Some brd -> let ki := keep_idx (leaves_of args axs extra eaxs) brd in
   (forall o, idx = Some o -> ndim o = S (length ki)) -> forall b args' es r0, inb b brd -> sliced n args axs b args' -> mslices eaxs extra b es ->
     hess_transform f c2r fl custom mg dense_out args' es (option_map (slice_idx (length ki) (permute ki b)) idx) = Some r0 ->
     sh r0 = sh (o_fwd (merged f mg (length args) es) (xs_of args')) /\
     forall c, inb c (sh r0) -> at_ r0 c = hspec n (merged f mg (length args) es) args' c) ->
  let fm := merged f mg (length args) extra in let so := sh (o_fwd fm (xs_of args)) in
  (let* r := batched_eval f c2r fl custom mg dense_out args axs extra eaxs idx in if Nat.eqb (prod (sh r)) (prod so) then Some (reshape so r) else None) = Some r ->
  jhj_ok n fm args r.
Proof.
  intros [H1 H2 H3 H4 H5 H6 H7] Hloc fm so H. destruct (batched_eval f c2r fl custom mg dense_out args axs extra eaxs idx) as [r'|] eqn:E; [|discriminate]. cbn [bind] in H.
  destruct (Nat.eqb _ _); [|discriminate]. injection H as <-.
  pose proof H5 as [La _]. pose proof H6 as [Le _]. rewrite xs_length in La.
  destruct (@batched_brd f mg args axs extra eaxs H4 La Le H7) as (brd & Hbrd).
  destruct (@batched_eval_raw n f c2r fl custom mg dense_out args axs extra eaxs idx brd r' H3 H5 H6 Hbrd E) as (G & _).
  unfold jhj_ok. fold so. cbn [reshape sh]. split; [apply bto_refl|]. intros p Hp. rewrite bproj_same by auto.
  apply (@batched_eval_ok _ _ n f c2r fl custom mg dense_out args axs extra eaxs idx brd r'); auto. apply Hloc; auto.
Qed.
Lemma sliced_ne n (args : list (lapl A)) axs b args' : args <> [] -> sliced n args axs b args' -> args' <> [].
Proof. intros H [L _] ->. destruct args; [congruence|discriminate L]. Qed.
Lemma sliced_awf n (args : list (lapl A)) axs b args' : sliced n args axs b args' -> forall a, In a args' -> awf n a.
Proof. intros [L H] a Ha. apply (In_nth _ _ la0) in Ha. destruct Ha as (k & Hk & <-). rewrite L in Hk. destruct (H k Hk) as (_ & W & _). exact W. Qed.
Lemma sliced_dense n (enough : lapl A -> Prop) (args : list (lapl A)) axs b args' : sliced n args axs b args' -> (forall a, In a args -> weak (ljac a) = false -> enough a) ->
  forall a, (a < length args')%nat -> weak (ljac (nth a args' la0)) = false -> exists a0, enough a0 /\ rows (jdata (ljac (nth a args' la0))) = rows (jdata (ljac a0)).
Proof. intros [L H] HD a Ha Hwk. rewrite L in Ha. destruct (H a Ha) as (_ & _ & E1 & E2 & _). exists (nth a args la0). split; [|exact E2]. apply HD; [apply nth_In; auto|congruence]. Qed.
(* dense Jacobians next to sparse ones: a row for every input, or at least as many rows as the threshold *)
Definition tall (n : nat) (th : Z) (fl : flags) (a : lapl A) : Prop := rows (jdata (ljac a)) = n \/ (has SPARSE_JHJ fl = false /\ (th <= Z.of_nat (rows (jdata (ljac a))))%Z).

(* no stored index: every Jacobian entry is zero *)
Lemma no_idx_zero n f mg args axs extra eaxs fl th o dense_out : setup n f mg args axs extra eaxs -> has LINEAR_IN_ONE fl = false -> find_out_idx args axs fl th = Some (Some o, dense_out) -> rows o = 0%nat ->
  (exists p, inb p (sh (o_fwd (merged f mg (length args) extra) (xs_of args)))) -> forall a i q, (a < length args)%nat -> (i < n)%nat -> inb q (sh (lx (nth a args la0))) -> jent (ljac (nth a args la0)) i q = 0.
Proof.
  intros [H1 H2 H3 H4 H5 H6 H7] HL1 EF E0 (p & Hp) a i q Ha Hi Hq. pose proof H5 as [La _]. pose proof H6 as [Le _]. rewrite xs_length in La.
  destruct (@find_out_idx_spec _ _ n args axs fl th o dense_out H2 H3 H5 EF) as (_ & brda & Lf & HA & Hso & HN & HLf). cbn zeta in HLf.
  set (x := nth a args la0) in *. set (s := sh (lx x)) in *. set (ax := nth a axs []).
  assert (Hred : bto (reduced_shape s ax) brda).
  { destruct (@mleaves_nth _ _ n args axs a La H3 Ha) as (k & Hk). pose proof (@brd_bto _ _ _ HA Hk) as Hqq. cbn [fst snd] in Hqq. rewrite reduced_jac in Hqq. exact Hqq. }
  destruct (@batched_brd f mg args axs extra eaxs H4 La Le H7) as (brd & Hbrd).
  destruct (@hspec_slice n f mg args axs extra eaxs brd H4 H5 H6 H7 Hbrd) as (C & HC & _).
  assert (Hbt : bto brda brd).
  { pose proof HA as HA'. apply bshapes_spec in HA'. apply HA'. intros t Ht. apply in_map_iff in Ht. destruct Ht as (l & <- & Hl).
    destruct (@mleaves_inv _ _ n args axs _ La H3 Hl) as (a' & k & Ha' & ->). cbn [fst snd]. rewrite reduced_jac.
    apply (@brd_bto _ _ _ Hbrd (@leaves_arg _ _ args axs extra eaxs a' La Ha')). }
  rewrite HC in Hp. assert (Hb0 : inb (firstn (length brd) p) brd).
  { pose proof (inb_length Hp) as Lp. rewrite app_length in Lp. rewrite <- (firstn_skipn (length brd) p) in Hp. apply inb_app_inv in Hp; [apply Hp|]. rewrite firstn_length. lia. }
  assert (Hqr : inb (permute (keepax (length s) ax) q) (reduced_shape s ax)).
  { unfold reduced_shape. apply permute_inb; auto. intros d Hd. apply filter_In in Hd. destruct Hd as [Hd _]. apply in_seq in Hd. lia. }
  destruct (@bproj_surj _ _ _ _ Hred (@bproj_inb _ _ _ Hbt Hb0) Hqr) as (b & Hb & Eb).
  assert (Hwv : wv s ax b (permute (sax (length s) ax) q) = q).
  { unfold wv. rewrite reduced_sax, Eb, <- sax_keep. apply weave_permute; [apply inb_length; auto|apply sax_bound]. }
  rewrite <- Hwv. apply (@mval_jent _ _ n); [apply H3, nth_In; auto| |].
  + apply permute_inb; auto. intros d Hd. apply sax_bound in Hd. auto.
  + intros Hmv. destruct (HLf b Hb) as (_ & L2 & _ & L4). assert (Hin : In (Z.of_nat i) (Lf b)).
    { apply L4. split; [lia|]. rewrite HL1. exists a. auto. }
    destruct (Lf b); [contradiction|cbn in L2; lia].
Qed.
Theorem vmapped_general n f c2r fl extra axs eaxs mg th args r : setup n f mg args axs extra eaxs ->
  has LINEAR_IN_ONE fl = false -> (any_weak args = false \/ forall a, In a args -> weak (ljac a) = false -> tall n th fl a) ->
  vmapped_jhj f c2r fl None extra axs eaxs mg th args = Some r ->
  jhj_ok n (merged f mg (length args) extra) args r.
Proof.
  intros HS HL1 HU H. pose proof HS as [H1 H2 H3 H4 H5 H6 H7].
  assert (HM : has MULTIPLICATION fl = false) by (destruct (has MULTIPLICATION fl) eqn:E; auto; apply has_mult_one in E; congruence).
  pose proof (has_dot_mult _ HM) as HD. unfold vmapped_jhj in H. rewrite HD in H. cbn [andb] in H.
  destruct (find_out_idx args axs fl th) as [[oi dense_out]|] eqn:EF; [|discriminate]. cbn [bind] in H.
  assert (HNone : forall args1, setup n f mg args1 axs extra eaxs -> length args1 = length args -> xs_of args1 = xs_of args ->
     (forall a i q, (a < length args)%nat -> inb q (sh (lx (nth a args la0))) -> jent (ljac (nth a args1 la0)) i q = jent (ljac (nth a args la0)) i q) ->
     (let* r := batched_eval f c2r fl None mg dense_out args1 axs extra eaxs None in
      if Nat.eqb (prod (sh r)) (prod (sh (o_fwd f (mg _ (xs_of args) extra)))) then Some (reshape (sh (o_fwd f (mg _ (xs_of args) extra))) r) else None) = Some r ->
     jhj_ok n (merged f mg (length args) extra) args r).
  { intros args1 HS1 HL HX HJ HE. unfold jhj_ok. rewrite <- HX. 
    assert (HK : jhj_ok n (merged f mg (length args1) extra) args1 r).
    { eapply (@eval_final n f c2r fl None mg dense_out args1 axs extra eaxs None r HS1); [|cbn [merged o_fwd]; rewrite HX; exact HE].
      intros brd Hbrd ki _ b args' es r0 Hb S1 S2 Ht. unfold hess_transform in Ht. rewrite HM, HL1 in Ht.
      replace (if has SPARSE_JHJ fl then option_map (slice_idx (length ki) (permute ki b)) None else if dense_out then None else option_map (slice_idx (length ki) (permute ki b)) None) with (@None (nd Z)) in Ht by (destruct (has SPARSE_JHJ fl), dense_out; reflexivity).
      rewrite (proj1 S1) in Ht. destruct HS1 as [G1 G2 G3 G4 G5 G6 G7].
      destruct (@general_loc_none _ _ n _ c2r args' r0 G1 (@sliced_ne n args1 axs b args' G2 S1) (@sliced_awf n args1 axs b args' S1) Ht) as [K1 K2]. split; [exact K1|]. intros c _. apply K2. }
    destruct HK as [K1 K2]. rewrite HL in K1, K2. split; [exact K1|]. intros p Hp. rewrite (K2 p Hp). apply hspec_dense; auto. }
  destruct (dense_out && negb (has SPARSE_JHJ fl)) eqn:EDo.
  { destruct (args_dense args) as [d|] eqn:Ed; [|discriminate]. cbn [bind] in H.
    destruct (@args_dense_spec n args d H1 H3 Ed) as (L & X & W & J). apply (HNone d); auto. eapply setup_dense; eauto. }
  cbn [bind] in H. destruct oi as [o|].
  2:{ apply (HNone args); auto. }
  destruct (@find_out_idx_spec _ _ n args axs fl th o dense_out H2 H3 H5 EF) as (Hany & _).
  destruct HU as [HU|HU]; [congruence|].
  destruct (Nat.eqb_spec (rows o) 0) as [E0|E0].
  - injection H as <-. split; [apply bto_nil|]. intros p Hp. cbn [nd0 sh at_].
    symmetry. unfold hspec. apply sumn_zero. intros i Hi. apply quad_zero. rewrite xs_length. intros a q Ha Hq. rewrite xs_nth in Hq by auto.
    apply (@no_idx_zero n f mg args axs extra eaxs fl th o dense_out HS HL1 EF E0); auto. exists p. exact Hp.
  - eapply (@eval_final n f c2r fl None mg dense_out args axs extra eaxs (Some o) r HS); [|exact H].
    intros brd Hbrd ki HG b args' es r0 Hb S1 S2 Ht. specialize (HG o eq_refl).
    pose proof (@loc_facts_ok n args axs extra eaxs fl th o dense_out brd b args' H2 H3 H5 H6 EF Hbrd HG Hb S1) as [[F1 F2 F3 F4 F5] F6]. fold ki in F1, F2, F3, F4, F5, F6.
    unfold hess_transform in Ht. rewrite HM, HL1 in Ht. cbn [option_map] in Ht.
    replace (if has SPARSE_JHJ fl then Some (slice_idx (length ki) (permute ki b) o) else if dense_out then None else Some (slice_idx (length ki) (permute ki b) o)) with (Some (slice_idx (length ki) (permute ki b) o)) in Ht
      by (destruct (has SPARSE_JHJ fl), dense_out; cbn in EDo; congruence).
    rewrite (proj1 S1) in Ht.
    assert (Hd5 : forall a, (a < length args')%nat -> weak (ljac (nth a args' la0)) = true \/
       forall k q, (k < rows o)%nat -> inb q (sh (lx (nth a args' la0))) -> (0 <= at_ (slice_idx (length ki) (permute ki b) o) [k] < Z.of_nat (rows (jdata (ljac (nth a args' la0)))))%Z).
    { intros a Ha. destruct (weak (ljac (nth a args' la0))) eqn:Ewk; [left; reflexivity|right]. intros k q Hk Hq.
      destruct (@sliced_dense n (tall n th fl) args axs b args' S1 HU a Ha Ewk) as (a0 & [Hrn|[Hfl Hrn]] & Er); rewrite <- Er in Hrn; [rewrite Hrn; apply (F5 HL1 a k q); auto|].
      apply (F6 HL1) with (q := q); auto. rewrite Hfl in EDo. destruct dense_out; [discriminate EDo|reflexivity]. }
    destruct (@general_loc_some _ _ n (merged f mg (length args) es) c2r args' _ (rows o) r0 (@sliced_ne n args axs b args' H2 S1) (@sliced_awf n args axs b args' S1) F1 (F2 HL1) Hd5 Ht) as [K1 K2].
    split; [exact K1|]. intros c _. apply K2.
Qed.
End Final.
End Vm.
