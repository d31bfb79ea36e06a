(* HessFacts.v : soundness of the batched evaluation of the second-order term. *)
From Coq Require Import Sorted.
From Verif Require Export HessIdx OboFacts.
Set Implicit Arguments.

(* ---------- aligning the plan of find_out_idx with the plan of the batched evaluation ---------- *)
Lemma vmap_sequence_pad s brd brda ax : length s - length ax <= length brda -> length brda <= length brd ->
  vmap_sequence s brd ax = repeat None (length brd - length brda) ++ vmap_sequence s brda ax.
Proof.
  intros H1 H2. unfold vmap_sequence. rewrite app_assoc, <- repeat_app. f_equal. f_equal. lia.
Qed.
Lemma nth_repeat_none {X} k i : nth i (repeat (@None X) k) None = None.
Proof. revert i. induction k; destruct i; cbn; auto. Qed.
Lemma vmap_loop_some s ax : forall m i c sk j d, c + sk = i -> i + m = length s -> j < length (filter (fun d => negb (mem d ax)) (seq i m)) ->
  nth j (vmap_loop s ax (seq i m) c sk) None = Some d -> nth (nth j (filter (fun d => negb (mem d ax)) (seq i m)) 0) s 0 <> 1.
Proof.
  induction m as [|m IH]; intros i c sk j d Hc Hm Hj H; cbn [seq filter vmap_loop] in *; [cbn in Hj; lia|].
  destruct (mem i ax) eqn:E; cbn [negb] in *.
  - apply (IH (S i) c (S sk) j d); auto; lia.
  - destruct (Nat.ltb_spec (length s) (length s - i + c)); [lia|]. rewrite Hc in H. cbn in Hj.
    destruct (Nat.eqb_spec (nth i s 0) 1) as [E1|E1].
    + destruct j as [|j]; [discriminate|]. cbn [nth] in *. apply (IH (S i) (S c) sk j d); auto; lia.
    + destruct j as [|j]; [exact E1|]. cbn [nth] in *. apply (IH (S i) (S c) sk j d); auto; lia.
Qed.
Lemma bto_nth s t k : bto s t -> k < length s -> nth k s 0 = nth (length t - length s + k) t 0 \/ nth k s 0 = 1.
Proof.
  intros (t0 & t1 & -> & F) Hk. pose proof (F2_length F) as L. rewrite app_length. replace (length t0 + length t1 - length s + k) with (length t0 + k) by lia.
  rewrite app_nth2_plus. clear t0. revert k Hk. induction F as [|a b s t H F IH]; intros k Hk; [cbn in Hk; lia|]. destruct k; cbn; [lia|]. apply IH; cbn in *; lia.
Qed.
(* a kept position has a size different from one *)
Lemma kept_size leaves brd k : brdcast_shape leaves = Some brd -> (forall l, In l leaves -> leaf_ok l) -> In k (keep_idx leaves brd) -> nth k brd 0 <> 1.
Proof.
  intros HB Hok Hk. apply filter_In in Hk. destruct Hk as [Hk1 Hk2]. apply in_seq in Hk1. apply existsb_exists in Hk2. destruct Hk2 as (l & Hl & Hs).
  pose proof (@brd_bto _ _ _ HB Hl) as Hb. pose proof (@brd_len _ _ _ HB Hl (Hok _ Hl)) as Hlen. destruct (Hok _ Hl) as [K1 K2].
  unfold vmap_sequence in Hs. set (m := length brd - (length (fst l) - length (snd l))) in *.
  destruct (Nat.lt_ge_cases k m) as [Hlt|Hge].
  - rewrite app_nth1 in Hs by (rewrite repeat_length; lia). rewrite nth_repeat_none in Hs. discriminate.
  - rewrite app_nth2 in Hs by (rewrite repeat_length; lia). rewrite repeat_length in Hs.
    destruct (nth (k - m) (vmap_loop (fst l) (snd l) (seq 0 (length (fst l))) 0 0) None) as [d|] eqn:E; [|discriminate].
    pose proof (keepax_length K1 K2) as KL. unfold keepax in KL.
    apply vmap_loop_some in E; [|lia|lia|rewrite KL; lia].
    assert (Hlr : length (reduced_shape (fst l) (snd l)) = length (fst l) - length (snd l)) by (unfold reduced_shape; rewrite permute_length; exact KL).
    destruct (@bto_nth _ _ (k - m) Hb) as [Hn|Hn]; [rewrite Hlr; lia| |].
    + rewrite Hlr in Hn. fold m in Hn. replace (m + (k - m)) with k in Hn by lia. rewrite <- Hn. unfold reduced_shape, permute.
      rewrite (@nth_map_in _ _ (fun d => nth d (fst l) 0) _ _ 0) by (unfold keepax; rewrite KL; lia). exact E.
    + exfalso. apply E. rewrite <- Hn. unfold reduced_shape, permute. symmetry. apply (@nth_map_in _ _ (fun d => nth d (fst l) 0) _ _ 0). unfold keepax; rewrite KL; lia.
Qed.
Lemma sorted_filter P : forall n i, StronglySorted lt (filter P (seq i n)).
Proof.
  induction n as [|n IH]; intros i; cbn [seq filter]; [constructor|]. destruct (P i); [|apply IH]. constructor; [apply IH|].
  apply Forall_forall. intros x Hx. apply filter_In in Hx. destruct Hx as [Hx _]. apply in_seq in Hx. lia.
Qed.
Lemma sorted_same l : forall m, StronglySorted lt l -> StronglySorted lt m -> (forall x, In x l <-> In x m) -> l = m.
Proof.
  induction l as [|a l IH]; intros [|b m] Hl Hm H; auto.
  - exfalso. apply (proj2 (H b)). left; auto.
  - exfalso. apply (proj1 (H a)). left; auto.
  - apply StronglySorted_inv in Hl. apply StronglySorted_inv in Hm. destruct Hl as [Sl Fl], Hm as [Sm Fm]. rewrite Forall_forall in Fl, Fm.
    assert (a = b) as ->.
    { destruct (proj1 (H a) (or_introl eq_refl)) as [E|E]; auto. destruct (proj2 (H b) (or_introl eq_refl)) as [E'|E']; auto. apply Fm in E. apply Fl in E'. lia. }
    f_equal. apply IH; auto. intros x. split; intros Hx.
    + destruct (proj1 (H x) (or_intror Hx)) as [E|E]; auto. subst. apply Fl in Hx. lia.
    + destruct (proj2 (H x) (or_intror Hx)) as [E|E]; auto. subst. apply Fm in Hx. lia.
Qed.
Lemma sub_same (l m : list nat) : StronglySorted lt l -> StronglySorted lt m -> incl l m -> length m = length l -> l = m.
Proof.
  intros Hl Hm Hi He. apply sorted_same; auto. intros x. split; [apply Hi|]. intros Hx.
  assert (NoDup l). { clear -Hl. induction Hl; constructor; auto. rewrite Forall_forall in H. intros Hx. apply H in Hx. lia. }
  apply (@NoDup_length_incl _ l m); auto. lia.
Qed.

Section HF.
Context {A : Type} {RA : CRing A}.
Add Ring Aring_HF : (@rth A RA).
Open Scope cr_scope.

Lemma in_combine_nth' {X Y} (l : list X) (m : list Y) p dx dy : In p (combine l m) -> exists k, (k < length l)%nat /\ (k < length m)%nat /\ p = (nth k l dx, nth k m dy).
Proof.
  intros H. revert m H. induction l as [|x l IH]; intros [|y m] H; cbn in H; try contradiction. destruct H as [<-|H].
  - exists 0%nat. cbn. split; [lia|split; [lia|reflexivity]].
  - destruct (IH m H) as (k & H1 & H2 & ->). exists (S k). cbn. split; [lia|split; [lia|reflexivity]].
Qed.
(* the leaves of the batched evaluation are well formed *)
Lemma leaves_ok (args : list (lapl A)) axs extra eaxs : axes_ok axs (xs_of args) -> axes_ok eaxs extra -> forall l, In l (leaves_of args axs extra eaxs) -> leaf_ok l.
Proof.
  intros [H1 H2] [H3 H4] l Hl. rewrite xs_length in *. unfold leaves_of in Hl. apply in_app_or in Hl. destruct Hl as [Hl|Hl].
  - destruct (@in_combine_nth' _ _ _ _ l [] [] Hl) as (k & K1 & K2 & ->). rewrite map_length in K1. destruct (H2 k K1) as [G1 G2]. unfold leaf_ok. cbn [fst snd]. split; auto.
    intros d Hd. apply G2 in Hd. rewrite xs_nth in Hd by auto. rewrite nth_map_in with (dx := la0) by auto. exact Hd.
  - destruct (@in_combine_nth' _ _ _ _ l [] [] Hl) as (k & K1 & K2 & ->). rewrite map_length in K1. destruct (H4 k K1) as [G1 G2]. unfold leaf_ok. cbn [fst snd]. split; auto.
    intros d Hd. apply G2 in Hd. rewrite nth_map_in with (dx := nd0) by auto. exact Hd.
Qed.
Lemma mleaves_nth n (args : list (lapl A)) axs a : length axs = length args -> (forall a, In a args -> awf n a) -> (a < length args)%nat ->
  exists k, In (k :: sh (lx (nth a args la0)), jac_axes (nth a axs [])) (mleaves args axs).
Proof.
  intros Hl Hw Ha. destruct (Hw (nth a args la0)) as [W _]; [apply nth_In; auto|]. pose proof W as (k & Hk & _). exists k. unfold mleaves. rewrite <- Hk, <- (mask_sh W).
  replace (sh (mask (ljac (nth a args la0)))) with (nth a (map (@sh Z) (map (fun a => mask (ljac a)) args)) []).
  - replace (jac_axes (nth a axs [])) with (nth a (map jac_axes axs) (jac_axes [])) by (apply map_nth). apply in_combine_nth; rewrite ?map_length; lia.
  - rewrite map_map. rewrite nth_map_in with (dx := la0) by auto. reflexivity.
Qed.
Lemma mleaves_inv n (args : list (lapl A)) axs l : length axs = length args -> (forall a, In a args -> awf n a) -> In l (mleaves args axs) ->
  exists a k, (a < length args)%nat /\ l = (k :: sh (lx (nth a args la0)), jac_axes (nth a axs [])).
Proof.
  intros Hl Hw Hin. destruct (@in_combine_nth' _ _ _ _ l [] [] Hin) as (a & K1 & K2 & ->). rewrite !map_length in K1. rewrite map_length in K2.
  destruct (Hw (nth a args la0)) as [W _]; [apply nth_In; auto|]. pose proof W as (k & Hk & _). exists a, k. split; auto. f_equal.
  - rewrite map_map. rewrite nth_map_in with (dx := la0) by auto. rewrite (mask_sh W). exact Hk.
  - rewrite nth_map_in with (dx := []) by auto. reflexivity.
Qed.
Lemma reduced_jac k s ax : reduced_shape (k :: s) (jac_axes ax) = reduced_shape s ax.
Proof. unfold reduced_shape. cbn [length]. rewrite <- sax_keep, sax_jac, keep_pos_jac, permute_map_S, sax_keep. reflexivity. Qed.
Lemma mleaves_ok n (args : list (lapl A)) axs : axes_ok axs (xs_of args) -> (forall a, In a args -> awf n a) -> forall l, In l (mleaves args axs) -> leaf_ok l.
Proof.
  intros [H1 H2] Hw l Hl. rewrite xs_length in *. destruct (@mleaves_inv n args axs _ H1 Hw Hl) as (a & k & Ha & ->). destruct (H2 a Ha) as [G1 G2].
  unfold leaf_ok. cbn [fst snd]. split.
  - unfold jac_axes. apply NoDup_app_intro; [apply FinFun.Injective_map_NoDup; auto; intros x1 y1; lia|repeat constructor; auto|].
    intros d Hd [Hd'|[]]. apply in_map_iff in Hd. destruct Hd as (y & Hy & _). lia.
  - unfold jac_axes. intros d Hd. cbn. apply in_app_or in Hd. destruct Hd as [Hd|[Hd|[]]]; [|lia].
    apply in_map_iff in Hd. destruct Hd as (y & Hy & Hd). apply G2 in Hd. rewrite xs_nth in Hd by auto. unfold ndim in Hd. lia.
Qed.
Lemma leaves_arg (args : list (lapl A)) axs extra eaxs a : length axs = length args -> (a < length args)%nat -> In (sh (lx (nth a args la0)), nth a axs []) (leaves_of args axs extra eaxs).
Proof.
  intros Hl Ha. unfold leaves_of. apply in_or_app. left.
  replace (sh (lx (nth a args la0))) with (nth a (map (fun a => sh (lx a)) args) []) by (rewrite nth_map_in with (dx := la0) by auto; reflexivity).
  apply in_combine_nth; rewrite ?map_length; lia.
Qed.
Lemma leaves_extra (args : list (lapl A)) axs extra eaxs a : length eaxs = length extra -> (a < length extra)%nat -> In (sh (nth a extra nd0), nth a eaxs []) (leaves_of args axs extra eaxs).
Proof.
  intros Hl Ha. unfold leaves_of. apply in_or_app. right.
  replace (sh (nth a extra nd0)) with (nth a (map (@sh A) extra) []) by (rewrite nth_map_in with (dx := nd0) by auto; reflexivity).
  apply in_combine_nth; rewrite ?map_length; lia.
Qed.
Lemma ki_align n (args : list (lapl A)) axs extra eaxs brda brd : axes_ok axs (xs_of args) -> axes_ok eaxs extra -> (forall a, In a args -> awf n a) ->
  brdcast_shape (mleaves args axs) = Some brda -> brdcast_shape (leaves_of args axs extra eaxs) = Some brd ->
  length (keep_idx (mleaves args axs) brda) = length (keep_idx (leaves_of args axs extra eaxs) brd) ->
  bto brda brd /\ forall b, inb b brd -> permute (keep_idx (mleaves args axs) brda) (bproj brda b) = permute (keep_idx (leaves_of args axs extra eaxs) brd) b.
Proof.
  intros Hax Hea Hw HA HB Hlen. pose proof Hax as [H1 H2]. rewrite xs_length in H1, H2.
  pose proof (@mleaves_ok n args axs Hax Hw) as Oka. pose proof (@leaves_ok args axs extra eaxs Hax Hea) as Okb.
  assert (Hbt : bto brda brd).
  { pose proof HA as HA'. apply bshapes_spec in HA'. apply HA'. intros s Hs. apply in_map_iff in Hs. destruct Hs as (l & <- & Hl).
    destruct (@mleaves_inv n args axs _ H1 Hw Hl) as (a & k & Ha & ->). cbn [fst snd]. rewrite reduced_jac.
    apply (@brd_bto _ _ _ HB (@leaves_arg args axs extra eaxs a H1 Ha)). }
  split; [exact Hbt|]. pose proof (bto_length Hbt) as Hll. set (dl := (length brd - length brda)%nat).
  assert (Hki : map (fun k => dl + k)%nat (keep_idx (mleaves args axs) brda) = keep_idx (leaves_of args axs extra eaxs) brd).
  { apply sub_same.
    - unfold keep_idx. generalize (sorted_filter (fun i => existsb (fun l => is_some (nth i (vmap_sequence (fst l) brda (snd l)) None)) (mleaves args axs)) (length brda) 0).
      generalize (filter (fun i => existsb (fun l => is_some (nth i (vmap_sequence (fst l) brda (snd l)) None)) (mleaves args axs)) (seq 0 (length brda))).
      intros l Hs. induction Hs as [|x l Hs IH F]; cbn; constructor; auto. apply Forall_forall. intros y Hy. apply in_map_iff in Hy. destruct Hy as (z & <- & Hz).
      rewrite Forall_forall in F. apply F in Hz. lia.
    - apply sorted_filter.
    - intros k' Hk'. apply in_map_iff in Hk'. destruct Hk' as (k & <- & Hk). pose proof (@keep_idx_In _ _ _ Hk) as Hkl.
      apply filter_In in Hk. destruct Hk as [_ Hk]. apply existsb_exists in Hk. destruct Hk as (l & Hl & Hs).
      destruct (@mleaves_inv n args axs _ H1 Hw Hl) as (a & kk & Ha & ->). cbn [fst snd] in Hs.
      apply filter_In. split; [apply in_seq; unfold dl; lia|]. apply existsb_exists. exists (sh (lx (nth a args la0)), nth a axs []). split; [apply leaves_arg; auto|]. cbn [fst snd].
      pose proof (@brd_len _ _ _ HA Hl (Oka _ Hl)) as HLa. cbn [fst snd] in HLa. unfold jac_axes in HLa. rewrite app_length, map_length in HLa. cbn [length] in HLa.
      rewrite (@vmap_sequence_pad _ brd brda); [|lia|lia]. fold dl. rewrite app_nth2 by (rewrite repeat_length; lia). rewrite repeat_length. replace (dl + k - dl)%nat with k by lia.
      rewrite vmap_sequence_jac in Hs. change (@None nat) with (jshift None) in Hs. rewrite (map_nth jshift) in Hs.
      destruct (nth k (vmap_sequence (sh (lx (nth a args la0))) brda (nth a axs [])) None); auto.
    - rewrite map_length. auto. }
  intros b Hb. rewrite <- Hki. unfold permute. rewrite map_map. apply map_ext_in. intros k Hk.
  pose proof (@keep_idx_In _ _ _ Hk) as Hkl. pose proof (@kept_size _ _ _ HA Oka Hk) as Hne.
  pose proof (inb_length Hb) as Lb. rewrite bproj_nth by lia. rewrite Lb. fold dl.
  destruct (Nat.eqb_spec (nth k brda 0%nat) 1); [congruence|reflexivity].
Qed.
(* ---------- one batch element at a time ---------- *)
Definition sliced (n : nat) (args : list (lapl A)) (axs : list (list nat)) (b : ix) (args' : list (lapl A)) : Prop :=
  length args' = length args /\ forall a, (a < length args)%nat -> slice_of n (nth a axs []) b (nth a args la0) (nth a args' la0).
Lemma sliced_mslices n args axs b args' : length axs = length args -> sliced n args axs b args' -> mslices axs (xs_of args) b (xs_of args').
Proof.
  intros Hl [H1 H2]. split; [rewrite !xs_length; auto|]. split; [rewrite xs_length; auto|]. rewrite xs_length. intros a Ha. rewrite !xs_nth by lia. apply H2; auto.
Qed.
Lemma quad_ext f (xs : list (nd A)) p u v u' v' :
  (forall a q, (a < length xs)%nat -> inb q (sh (nth a xs nd0)) -> u a q = u' a q) ->
  (forall a q, (a < length xs)%nat -> inb q (sh (nth a xs nd0)) -> v a q = v' a q) -> quad f xs p u v = quad f xs p u' v'.
Proof.
  intros H1 H2. unfold quad. apply sumn_ext. intros a Ha. apply sumL_ext. intros q Hq. apply allix_spec in Hq. apply sumn_ext. intros b Hb. apply sumL_ext. intros r Hr. apply allix_spec in Hr.
  rewrite H1, H2 by auto. reflexivity.
Qed.
Lemma quad_zero f (xs : list (nd A)) p u v : (forall a q, (a < length xs)%nat -> inb q (sh (nth a xs nd0)) -> u a q = 0) -> quad f xs p u v = 0.
Proof.
  intros H1. unfold quad. apply sumn_zero. intros a Ha. apply sumL_zero. intros q Hq. apply allix_spec in Hq. apply sumn_zero. intros b Hb. apply sumL_zero. intros r Hr.
  rewrite H1 by auto. ring.
Qed.
Lemma map2_nth {X Y Z} (f : X -> Y -> Z) l m k dx dy dz : (k < length l)%nat -> (k < length m)%nat -> nth k (map2 f l m) dz = f (nth k l dx) (nth k m dy).
Proof. revert m k. induction l as [|x l IH]; intros [|y m] [|k] H1 H2; cbn in *; try lia; auto. apply IH; lia. Qed.
Lemma map2_len {X Y Z} (f : X -> Y -> Z) l m : length l = length m -> length (map2 f l m) = length l.
Proof. revert m. induction l as [|x l IH]; intros [|y m] H; cbn in *; try lia. rewrite IH; lia. Qed.

Theorem batched_eval_ok n f c2r fl custom mg dense_out args axs extra eaxs idx brd r :
  merge_ok mg (length args) (length extra) -> (forall a, In a args -> awf n a) ->
  axes_ok axs (xs_of args) -> axes_ok eaxs extra -> batched f (mg _ axs eaxs) (mg _ (xs_of args) extra) ->
  brdcast_shape (leaves_of args axs extra eaxs) = Some brd ->
  let ki := keep_idx (leaves_of args axs extra eaxs) brd in
  let fm := merged f mg (length args) extra in let so := sh (o_fwd fm (xs_of args)) in
  (forall b args' es r0, inb b brd -> sliced n args axs b args' -> mslices eaxs extra b es ->
     hess_transform f c2r fl custom mg dense_out args' es (option_map (slice_idx (length ki) (permute ki b)) idx) = Some r0 ->
     sh r0 = sh (o_fwd (merged f mg (length args) es) (xs_of args')) /\
     forall c, inb c (sh r0) -> at_ r0 c = hspec n (merged f mg (length args) es) args' c) ->
  batched_eval f c2r fl custom mg dense_out args axs extra eaxs idx = Some r ->
  forall p, inb p so -> at_ (reshape so r) p = hspec n fm args p.
Proof.
  intros Hm Hw Hax Hea HB Hbrd ki fm so Hloc Hev p Hp.
  pose proof Hax as [La Hax2]. pose proof Hea as [Le _]. rewrite xs_length in La, Hax2.
  destruct (@merged_batched _ _ f mg args axs extra eaxs brd Hm La Le HB Hbrd) as (C & HC & HH). fold fm in HC, HH.
  unfold so in *. rewrite HC in *. clear so.
  pose proof (@leaves_ok args axs extra eaxs Hax Hea) as Hok.
  unfold batched_eval in Hev. rewrite Hbrd in Hev. cbn [bind] in Hev. fold ki in Hev.
  match type of Hev with (if ?g then _ else _) = _ => destruct g; [discriminate|] end.
  set (kb := permute ki brd) in *.
  match type of Hev with context [map ?F (allix kb)] => set (at_b := F) in * end.
  destruct (sequence (map at_b (allix kb))) as [rs|] eqn:Es; [|discriminate]. cbn [bind] in Hev. injection Hev as <-.
  destruct (sequence_spec _ Es) as [Ls Hs]. rewrite map_length in Ls, Hs.
  (* the slices of batch element b *)
  assert (Hslice : forall b r0, inb b brd -> at_b (permute ki b) = Some r0 -> sh r0 = C /\ forall c, inb c C -> at_ r0 c = hspec n fm args (b ++ c)).
  { intros b r0 Hb Hr0. unfold at_b in Hr0.
    set (args' := map2 (fun a ax => slice_lapl (leaf_seq (leaves_of args axs extra eaxs) brd (sh (lx a), ax))
        (map (fun i => nth i (vmap_sequence (sh (jdata (ljac a))) brd (jac_axes ax)) None) ki) ax (permute ki b) a) args axs) in *.
    set (es := map2 (fun e ax => slice_seq (leaf_seq (leaves_of args axs extra eaxs) brd (sh e, ax)) (permute ki b) (squeeze ax e)) extra eaxs) in *.
    assert (S1 : sliced n args axs b args').
    { split; [unfold args'; apply map2_len; lia|]. intros a Ha. unfold args'. rewrite map2_nth with (dx := la0) (dy := []) by lia.
      apply slice_lapl_of; auto; [apply leaves_arg; auto|apply Hok, leaves_arg; auto|apply Hw, nth_In; auto]. }
    assert (S2 : mslices eaxs extra b es).
    { split; [unfold es; apply map2_len; lia|]. split; [auto|]. intros a Ha. unfold es. rewrite map2_nth with (dx := nd0) (dy := []) by lia.
      apply eqa_sym, eql_eqa, leaf_slice; auto; [apply leaves_extra; auto|apply Hok, leaves_extra; auto]. }
    destruct (Hloc b args' es r0 Hb S1 S2 Hr0) as [K1 K2].
    destruct (HH b (xs_of args') es Hb (@sliced_mslices n args axs b args' La S1) S2) as [G1 G2]. rewrite G1 in K1. rewrite K1 in K2. split; [exact K1|].
    intros c Hc. rewrite K2 by auto. unfold hspec. apply sumn_ext. intros i Hi. destruct S1 as [Ln S1].
    assert (Hshp : forall a, (a < length args)%nat -> sh (lx (nth a args' la0)) = permute (sax (ndim (nth a (xs_of args) nd0)) (nth a axs [])) (sh (nth a (xs_of args) nd0))).
    { intros a Ha. rewrite xs_nth by lia. destruct (S1 a Ha) as (E & _). destruct E as [E _]. rewrite <- E. reflexivity. }
    symmetry. rewrite (@quad_batched _ _ fm (merged f mg (length args) es) args axs brd (xs_of args') b c).
    - apply quad_ext; rewrite xs_length, Ln; intros a q Ha Hq; rewrite xs_nth in Hq by lia; rewrite xs_nth by lia; destruct (S1 a Ha) as (_ & _ & _ & _ & E); symmetry; apply E;
        rewrite (Hshp a Ha) in Hq; rewrite xs_nth in Hq by auto; exact Hq.
    - rewrite xs_length. exact Ln.
    - intros a Ha. rewrite (xs_nth args') by lia. apply Hshp; auto.
    - intros a Ha. rewrite xs_nth by auto. apply (@brd_bto _ _ _ Hbrd (@leaves_arg args axs extra eaxs a La Ha)).
    - exact Hb.
    - intros a q a' q' Ha Ha' Hq Hq'. apply G2; auto. }
  assert (Hone : forall k, (k < length brd)%nat -> ~ In k ki -> nth k brd 0%nat = 1%nat) by (intros k Hk Hn; apply (@brd_one _ _ k Hbrd Hok Hk Hn)).
  assert (Hrs : forall b, inb b brd -> at_b (permute ki b) = Some (nth (ravel_ix kb (permute ki b)) rs nd0)).
  { intros b Hb. assert (Hkb : inb (permute ki b) kb) by (apply permute_inb; auto; intros d Hd; apply keep_idx_In in Hd; auto).
    specialize (Hs (ravel_ix kb (permute ki b)) nd0 None ltac:(rewrite allix_length; apply ravel_lt; auto)).
    rewrite nth_map_in with (dx := ([] : ix)) in Hs by (rewrite allix_length; apply ravel_lt; auto). rewrite nth_ravel_allix in Hs by auto. exact Hs. }
  assert (Hbc : exists b c, p = b ++ c /\ inb b brd /\ inb c C).
  { exists (firstn (length brd) p), (skipn (length brd) p). split; [symmetry; apply firstn_skipn|].
    pose proof (inb_length Hp) as Lp. rewrite app_length in Lp.
    rewrite <- (firstn_skipn (length brd) p) in Hp. apply inb_app_inv in Hp; auto. rewrite firstn_length. lia. }
  destruct Hbc as (b & c & -> & Hb & Hc).
  destruct (Hslice b _ Hb (Hrs b Hb)) as [R1 R2].
  assert (Hkb : inb (permute ki b) kb) by (apply permute_inb; auto; intros d Hd; apply keep_idx_In in Hd; auto).
  (* shape of the stacked result *)
  assert (Hr0 : sh (hd nd0 rs) = C).
  { destruct rs as [|r0 rs']; [|].
    - exfalso. pose proof (ravel_lt Hkb) as Hlt. cbn [length] in Ls. rewrite allix_length in Ls. lia.
    - cbn [hd]. assert (Hz : exists b0, inb b0 kb /\ ravel_ix kb b0 = 0%nat).
      { exists (unravel_ix kb 0). pose proof (ravel_lt Hkb). split; [apply unravel_inb; lia|apply ravel_unravel; lia]. }
      destruct Hz as (b0 & Hb0 & Hr).
      destruct (@bexp_spec brd ki (keep_idx_filter _ _) Hone b0 Hb0) as [B1 B2].
      specialize (Hrs _ B1). rewrite B2, Hr in Hrs. cbn [nth] in Hrs. rewrite <- B2 in Hrs. apply (Hslice _ _ B1 Hrs). }
  cbn [sh] in *. rewrite Hr0.
  rewrite <- R2 by auto. rewrite (@reshape_ravel_eq _ (brd ++ C) _ (b ++ c) (permute ki b ++ c)).
  - cbn [at_]. pose proof (inb_length Hkb) as Lk. rewrite <- Lk. rewrite firstn_app, firstn_all, Nat.sub_diag, firstn_O, app_nil_r, skipn_app, skipn_all, Nat.sub_diag. reflexivity.
  - cbn [sh]. apply inb_app; auto.
  - cbn [sh]. rewrite !ravel_app by (apply inb_length; auto). f_equal. f_equal. symmetry.
    destruct (@ravel_keep brd (fun i => existsb (fun l => is_some (nth i (vmap_sequence (fst l) brd (snd l)) None)) (leaves_of args axs extra eaxs)) b Hb) as [E _]; [exact Hone|]. exact E.
Qed.
End HF.
