(* HessBatch.v : from one batch element to the whole array. *)
From Verif Require Export HessCore.
Set Implicit Arguments.

(* ---------- shapes ---------- *)
Lemma bto_antisym s t : bto s t -> bto t s -> s = t.
Proof.
  intros (s0 & s1 & E1 & H1) (t0 & t1 & E2 & H2).
  assert (length s0 = 0 /\ length t0 = 0) as [L0 L1].
  { pose proof (F2_length H1). pose proof (F2_length H2). subst t. rewrite E2 in *. rewrite !app_length in *. lia. }
  destruct s0; [|discriminate]. destruct t0; [|discriminate]. cbn in *. subst t1. subst s1.
  clear -H1 H2. revert t H1 H2. induction s as [|a s IH]; intros t H1 H2; inversion H1; subst; auto. inversion H2; subst. f_equal; [lia|]. apply IH; auto.
Qed.
Lemma bshapes_perm l m r r' : bshapes l = Some r -> bshapes m = Some r' -> (forall s, In s l <-> In s m) -> r = r'.
Proof.
  intros H1 H2 H. apply bshapes_spec in H1. apply bshapes_spec in H2. destruct H1 as [U1 L1], H2 as [U2 L2].
  apply bto_antisym; [apply L1; intros s Hs; apply U2, H; auto|apply L2; intros s Hs; apply U1, H; auto].
Qed.
(* positions that are dropped have size one *)
Lemma vmap_loop_none s ax : forall m i c sk j, c + sk = i -> i + m = length s -> j < length (filter (fun d => negb (mem d ax)) (seq i m)) ->
  nth j (vmap_loop s ax (seq i m) c sk) None = None -> nth (nth j (filter (fun d => negb (mem d ax)) (seq i m)) 0) s 0 = 1.
Proof.
  induction m as [|m IH]; intros i c sk j Hc Hm Hj H; cbn [seq filter vmap_loop] in *; [cbn in Hj; lia|].
  destruct (mem i ax) eqn:E; cbn [negb] in *.
  - apply (IH (S i) c (S sk)); auto; lia.
  - destruct (Nat.ltb_spec (length s) (length s - i + c)); [lia|]. rewrite Hc in H. cbn in Hj.
    destruct (Nat.eqb_spec (nth i s 0) 1) as [E1|E1].
    + destruct j as [|j]; [exact E1|]. cbn [nth] in *. apply (IH (S i) (S c) sk); auto; lia.
    + destruct j as [|j]; [discriminate|]. cbn [nth] in *. apply (IH (S i) (S c) sk); auto; lia.
Qed.
Lemma brd_one leaves brd k : brdcast_shape leaves = Some brd -> (forall l, In l leaves -> leaf_ok l) ->
  k < length brd -> ~ In k (keep_idx leaves brd) -> nth k brd 0 = 1.
Proof.
  intros HB Hok Hk Hn. pose proof HB as HB'. apply bshapes_spec in HB'. destruct HB' as [HU HL].
  specialize (HL (upd k 1 brd)). assert (bto brd (upd k 1 brd)) as (s0 & s1 & E & F).
  { apply HL. intros s Hs. apply in_map_iff in Hs. destruct Hs as (l & <- & Hl).
    pose proof (@brd_bto _ _ _ HB Hl) as Hb. pose proof (@brd_len _ _ _ HB Hl (Hok _ Hl)) as Hlen.
    destruct (Hok _ Hl) as [K1 K2]. pose proof (@leaf_none _ _ l k Hl Hk Hn) as HN.
    destruct Hb as (b0 & b1 & Eb & Fb). pose proof (F2_length Fb) as L1. unfold reduced_shape in L1 at 1.
    rewrite permute_length, keepax_length in L1 by auto.
    destruct (Nat.lt_ge_cases k (length b0)) as [Hlt|Hge].
    - exists (upd k 1 b0), b1. split; [|exact Fb]. subst brd. clear -Hlt. revert k Hlt. induction b0 as [|x b0 IH]; intros k H; cbn in H; [lia|].
      destruct k; cbn; auto. rewrite IH by lia. reflexivity.
    - assert (Hj : nth (k - length b0) (reduced_shape (fst l) (snd l)) 0 = 1).
      { unfold vmap_sequence in HN. assert (length brd = length b0 + length b1) by (subst brd; apply app_length).
        rewrite app_nth2 in HN by (rewrite repeat_length; lia). rewrite repeat_length in HN.
        replace (k - (length brd - (length (fst l) - length (snd l)))) with (k - length b0) in HN by lia.
        apply vmap_loop_none in HN; auto.
        - unfold reduced_shape, permute. rewrite (@nth_map_in _ _ (fun d => nth d (fst l) 0) _ _ 0); [exact HN|].
          rewrite keepax_length by auto. lia.
        - change (filter (fun d => negb (mem d (snd l))) (seq 0 (length (fst l)))) with (keepax (length (fst l)) (snd l)).
          rewrite keepax_length by auto. lia. }
      exists b0, (upd (k - length b0) 1 b1). split.
      + subst brd. clear -Hge. revert k Hge. induction b0 as [|x b0 IH]; intros k H; cbn in *; [rewrite Nat.sub_0_r; reflexivity|].
        destruct k; [lia|]. cbn. rewrite IH by lia. reflexivity.
      + revert Hj. generalize (k - length b0). generalize (reduced_shape (fst l) (snd l)) Fb. clear. intros t F. induction F as [|a b t b1 Hab F IH]; intros j Hj; [destruct j; constructor|].
        destruct j; cbn in *; constructor; auto. }
  assert (Hs0 : s0 = []).
  { destruct s0; auto. exfalso. apply (f_equal (@length nat)) in E. rewrite upd_length, app_length in E. cbn in E. pose proof (F2_length F). lia. }
  subst s0. cbn in E. subst s1. clear -F Hk. revert k F Hk. induction brd as [|x brd IH]; intros k F Hk; cbn in Hk; [lia|].
  destruct k as [|k]; cbn in *; inversion F; subst; [destruct H2; auto|]. apply IH; auto; lia.
Qed.
(* expanding a batch index of the kept axes *)
Definition bexp (ki : list nat) (n : nat) (b : ix) : ix := map (fun k => if mem k ki then nth (pos k ki) b 0 else 0) (seq 0 n).
Lemma ki_bound (brd : shape) ki (Hki : exists P, ki = filter P (seq 0 (length brd))) : forall d, In d ki -> d < length brd.
Proof. destruct Hki as [P ->]. intros d Hd. apply filter_In in Hd. destruct Hd as [Hd _]. apply in_seq in Hd. lia. Qed.
Lemma ki_nodup (brd : shape) ki (Hki : exists P, ki = filter P (seq 0 (length brd))) : NoDup ki.
Proof. destruct Hki as [P ->]. apply NoDup_filter, seq_NoDup. Qed.
Lemma bexp_spec (brd : shape) ki (Hki : exists P, ki = filter P (seq 0 (length brd))) (H1 : forall k, k < length brd -> ~ In k ki -> nth k brd 0 = 1) b : inb b (permute ki brd) -> inb (bexp ki (length brd) b) brd /\ permute ki (bexp ki (length brd) b) = b.
Proof.
  intros Hb. pose proof (inb_length Hb) as Hl. rewrite permute_length in Hl. split.
  - apply inb_of_nth; [unfold bexp; rewrite map_length, seq_length; auto|]. intros d Hd. unfold bexp.
    rewrite (@nth_map_in _ _ (fun k => if mem k ki then nth (pos k ki) b 0 else 0) _ _ 0) by (rewrite seq_length; auto). rewrite seq_nth by auto. cbn.
    destruct (mem d ki) eqn:E.
    + apply mem_In in E. pose proof (pos_lt _ _ E) as Hp. pose proof (@inb_nth _ _ (pos d ki) Hb) as H. rewrite permute_length in H. specialize (H Hp).
      unfold permute in H. rewrite (@nth_map_in _ _ (fun d => nth d brd 0) _ _ 0 _ Hp) in H. rewrite nth_pos in H by auto. exact H.
    + apply mem_nIn in E. rewrite H1 by auto. lia.
  - apply nth_ext with (d := 0) (d' := 0); [rewrite permute_length; auto|]. rewrite permute_length. intros j Hj.
    unfold permute. rewrite (@nth_map_in _ _ (fun d => nth d (bexp ki (length brd) b) 0) _ _ 0 _ Hj). unfold bexp.
    assert (In (nth j ki 0) ki) as Hin by (apply nth_In; auto). pose proof (ki_bound _ Hki _ Hin) as Hb'.
    rewrite (@nth_map_in _ _ (fun k => if mem k ki then nth (pos k ki) b 0 else 0) _ _ 0) by (rewrite seq_length; auto). rewrite seq_nth by auto. cbn.
    assert (mem (nth j ki 0) ki = true) as -> by (apply mem_In; auto). rewrite pos_nth; auto. apply (ki_nodup _ Hki).
Qed.
Lemma ravel_select P : forall s b i, length b = length s -> (forall k, k < length s -> P (i + k) = false -> nth k s 0 = 1 /\ nth k b 0 = 0) ->
  ravel_ix (map (fun k => nth (k - i) s 0) (filter P (seq i (length s)))) (map (fun k => nth (k - i) b 0) (filter P (seq i (length s)))) = ravel_ix s b /\
  prod (map (fun k => nth (k - i) s 0) (filter P (seq i (length s)))) = prod s.
Proof.
  induction s as [|n s IH]; intros b i Hl HP; [auto|]. destruct b as [|x b]; [discriminate|]. cbn [length seq filter].
  destruct (IH b (S i)) as [I1 I2]; [cbn in Hl; lia| |].
  { intros k Hk Hf. specialize (HP (S k)). rewrite Nat.add_succ_r in HP. apply HP; [cbn; lia|exact Hf]. }
  assert (E1 : forall (l : list nat) (u : nat), map (fun k => nth (k - i) (u :: l) 0) (filter P (seq (S i) (length s))) = map (fun k => nth (k - S i) l 0) (filter P (seq (S i) (length s)))).
  { intros l u. apply map_ext_in. intros k Hk. apply filter_In in Hk. destruct Hk as [Hk _]. apply in_seq in Hk. replace (k - i) with (S (k - S i)) by lia. reflexivity. }
  destruct (P i) eqn:E.
  - cbn [map]. rewrite Nat.sub_diag. rewrite !E1. cbn [nth ravel_ix prod]. rewrite I1, I2. auto.
  - destruct (HP 0) as [K1 K2]; [cbn; lia|rewrite Nat.add_0_r; auto|]. cbn in K1, K2. subst n x. rewrite !E1. rewrite I1, I2. cbn. lia.
Qed.
Lemma ravel_keep brd P b : inb b brd -> (forall k, k < length brd -> ~ In k (filter P (seq 0 (length brd))) -> nth k brd 0 = 1) ->
  let ki := filter P (seq 0 (length brd)) in
  ravel_ix (permute ki brd) (permute ki b) = ravel_ix brd b /\ prod (permute ki brd) = prod brd.
Proof.
  intros Hb H ki. destruct (@ravel_select P brd b 0) as [I1 I2]; [apply inb_length; auto| |].
  - intros k Hk Hf. cbn in Hf. assert (nth k brd 0 = 1) as E by (apply H; auto; intros HH; apply filter_In in HH; destruct HH; congruence).
    split; auto. pose proof (inb_nth Hb Hk). lia.
  - unfold permute, ki. rewrite <- I1, <- I2. split; [f_equal|f_equal]; apply map_ext; intros k; rewrite Nat.sub_0_r; reflexivity.
Qed.
Lemma keep_idx_filter leaves brd : exists P, keep_idx leaves brd = filter P (seq 0 (length brd)).
Proof. eexists. reflexivity. Qed.

(* ---------- slices of the triples ---------- *)
Definition wv (s : shape) (ax : list nat) (b : ix) (j : ix) : ix :=
  weave (length s) (sax (length s) ax) (bproj (permute (keep_pos (length s) (sax (length s) ax)) s) b) j.
Lemma sax_bound n ax d : In d (sax n ax) -> d < n.
Proof. intros H. apply sax_In in H. tauto. Qed.
Lemma reduced_sax s ax : permute (keep_pos (length s) (sax (length s) ax)) s = reduced_shape s ax.
Proof. rewrite sax_keep. reflexivity. Qed.
Lemma wv_inb s ax brd b j : bto (reduced_shape s ax) brd -> inb b brd -> inb j (permute (sax (length s) ax) s) -> inb (wv s ax b j) s.
Proof.
  intros Hb Hi Hj. unfold wv. apply weave_inb; auto; [apply sax_NoDup|apply sax_bound|]. rewrite reduced_sax. eapply bproj_inb; eauto.
Qed.
Section Slices.
Context {A : Type} {RA : CRing A}.
Add Ring Aring_Slices : (@rth A RA).
Open Scope cr_scope.
(* a' is batch element b of the triple a *)
Definition slice_of (n : nat) (ax : list nat) (b : ix) (a a' : lapl A) : Prop :=
  let s := sh (lx a) in let t := permute (sax (length s) ax) s in
  eqa (bslice ax b (lx a)) (lx a') /\ awf n a' /\ weak (ljac a') = weak (ljac a) /\ rows (jdata (ljac a')) = rows (jdata (ljac a)) /\
  (forall i j, inb j t -> jent (ljac a') i j = jent (ljac a) i (wv s ax b j)) /\ (jdistinct (ljac a) -> jdistinct (ljac a')).
Lemma eqa_sym {X} (x y : nd X) : eqa x y -> eqa y x.
Proof. intros [H1 H2]. split; auto. intros i Hi. symmetry. apply H2. rewrite H1. auto. Qed.
Lemma slice_lapl_of n leaves brd ax b (a : lapl A) : brdcast_shape leaves = Some brd -> In (sh (lx a), ax) leaves -> leaf_ok (sh (lx a), ax) ->
  inb b brd -> awf n a ->
  slice_of n ax b a (slice_lapl (leaf_seq leaves brd (sh (lx a), ax))
     (map (fun i => nth i (vmap_sequence (sh (jdata (ljac a))) brd (jac_axes ax)) None) (keep_idx leaves brd)) ax (permute (keep_idx leaves brd) b) a).
Proof.
  intros HB Hin Hok Hb [(k & Hk & Hm) Hl]. set (s := sh (lx a)) in *.
  pose proof (@brd_bto _ _ _ HB Hin) as Hbto. cbn in Hbto.
  assert (Hx : eqa (slice_seq (leaf_seq leaves brd (s, ax)) (permute (keep_idx leaves brd) b) (squeeze ax (lx a))) (bslice ax b (lx a))).
  { apply eql_eqa, leaf_slice; auto. }
  assert (Hlp : sh (slice_seq (leaf_seq leaves brd (s, ax)) (permute (keep_idx leaves brd) b) (squeeze ax (llap a))) = permute (sax (length s) ax) s).
  { assert (Hs2 : (sh (llap a), ax) = (s, ax)) by congruence. destruct (@leaf_slice _ leaves brd ax b (llap a)) as [E _]; rewrite ?Hs2; auto. rewrite Hs2 in E. rewrite E. unfold bslice, ndim. cbn. rewrite Hl. reflexivity. }
  assert (HJ : forall X (y : nd X), sh y = k :: s ->
     let y' := slice_seq (map (fun i => nth i (vmap_sequence (sh (jdata (ljac a))) brd (jac_axes ax)) None) (keep_idx leaves brd)) (permute (keep_idx leaves brd) b) (squeeze (jac_axes ax) y) in
     sh y' = k :: permute (sax (length s) ax) s /\ forall r j, length j = length (sax (length s) ax) -> at_ y' (r :: j) = at_ y (r :: wv s ax b j)).
  { intros X y Hy y'. unfold y'. rewrite Hk, <- Hy. destruct (@jac_slice _ leaves brd ax b y k s HB Hin Hok Hb Hy) as [E1 E2]. split.
    - rewrite E1. cbn. unfold rows. rewrite Hy. reflexivity.
    - intros r j Hj. rewrite E2; [reflexivity|]. unfold ndim. rewrite E1. cbn. rewrite permute_length. lia. }
  destruct (HJ A _ Hk) as [Hd1 Hd2].
  assert (Hsx : sh (lx (slice_lapl (leaf_seq leaves brd (s, ax))
     (map (fun i => nth i (vmap_sequence (sh (jdata (ljac a))) brd (jac_axes ax)) None) (keep_idx leaves brd)) ax (permute (keep_idx leaves brd) b) a)) = permute (sax (length s) ax) s).
  { cbn. destruct Hx as [-> _]. reflexivity. }
  unfold slice_of. split; [apply eqa_sym; exact Hx|]. split; [|split; [|split; [|split]]].
  - unfold awf. rewrite Hsx. cbn [ljac llap slice_lapl]. split; [|exact Hlp]. exists k. cbn [jdata jidx]. split; [exact Hd1|].
    destruct (jidx (ljac a)) as [m|]; cbn [option_map]; [|exact Hm]. destruct Hm as [Hm1 Hm2]. destruct (HJ Z _ Hm1) as [Hz1 Hz2].
    split; [exact Hz1|]. intros r p Hr Hp. pose proof (inb_length Hp) as Lp. rewrite permute_length in Lp. rewrite Hz2, Hd2 by auto.
    apply Hm2; auto. apply (@wv_inb s ax brd); auto.
  - unfold weak. cbn. destruct (jidx (ljac a)); reflexivity.
  - unfold rows at 1. cbn [ljac slice_lapl jdata]. rewrite Hd1. unfold rows. rewrite Hk. reflexivity.
  - intros i j Hj. pose proof (inb_length Hj) as Lj. rewrite permute_length in Lj. unfold jent. cbn [ljac slice_lapl jdata jidx].
    destruct (jidx (ljac a)) as [m|]; cbn [option_map].
    + destruct Hm as [Hm1 Hm2]. destruct (HJ Z _ Hm1) as [Hz1 Hz2]. rewrite (rows_cons _ Hd1), (rows_cons _ Hk). apply sumn_ext. intros r Hr. rewrite Hz2, Hd2 by auto. reflexivity.
    + rewrite (rows_cons _ Hd1), (rows_cons _ Hk). rewrite Hd2 by auto. reflexivity.
  - unfold jdistinct. cbn [ljac slice_lapl jidx]. destruct (jidx (ljac a)) as [m|]; cbn [option_map]; [|auto]. destruct Hm as [Hm1 Hm2]. destruct (HJ Z _ Hm1) as [Hz1 Hz2].
    intros HD k' s' E r r' p Hr Hr' Hp. rewrite Hz1 in E. injection E as <- <-. pose proof (inb_length Hp) as Lp. rewrite permute_length in Lp. rewrite !Hz2 by auto. intros H0 H1.
    apply (HD k s Hm1 r r' (wv s ax b p) Hr Hr'); auto. apply (@wv_inb s ax brd); auto.
Qed.
(* ---------- summation over one slice ---------- *)
Lemma sum_slice s ax brd b (K : ix -> A) : bto (reduced_shape s ax) brd -> inb b brd ->
  sumL (allix s) (fun q => if in_slice s ax b q then K q else 0) = sumL (allix (permute (sax (length s) ax) s)) (fun j => K (wv s ax b j)).
Proof.
  intros Hb Hi. rewrite (@sum_weave _ _ (sax (length s) ax) s); [|apply sax_NoDup|apply sax_bound].
  set (i0 := bproj (permute (keep_pos (length s) (sax (length s) ax)) s) b).
  assert (Hi0 : inb i0 (permute (keep_pos (length s) (sax (length s) ax)) s)).
  { unfold i0. rewrite reduced_sax. eapply bproj_inb; eauto. }
  rewrite (@sumL_single _ _ _ _ i0); [|apply allix_NoDup|apply allix_spec; auto|].
  - apply sumL_ext. intros j Hj. unfold in_slice, wv. fold i0. rewrite <- sax_keep.
    rewrite weave_keep by (apply inb_length in Hi0; rewrite permute_length in Hi0; auto). fold i0.
    unfold ixeqb. destruct (list_eq_dec Nat.eq_dec i0 i0); [reflexivity|congruence].
  - intros i Hi' Hne. apply sumL_zero. intros j Hj. unfold in_slice. rewrite <- sax_keep. apply allix_spec in Hi'.
    rewrite weave_keep by (apply inb_length in Hi'; rewrite permute_length in Hi'; auto). fold i0.
    unfold ixeqb. destruct (list_eq_dec Nat.eq_dec i i0); [congruence|reflexivity].
Qed.
(* ---------- merging ---------- *)
Definition mslices (axs : list (list nat)) (xs : list (nd A)) (b : ix) (ys : list (nd A)) : Prop :=
  length ys = length xs /\ length axs = length xs /\ forall a, (a < length xs)%nat -> eqa (bslice (nth a axs []) b (nth a xs nd0)) (nth a ys nd0).
Lemma map2_map {X Y Z W} (f : Y -> Z -> W) (g : X -> Y) (h : X -> Z) l : map2 f (map g l) (map h l) = map (fun j => f (g j) (h j)) l.
Proof. induction l as [|x l IH]; cbn; [auto|]. rewrite IH. reflexivity. Qed.
Lemma F2_map {X Y Z} (P : Y -> Z -> Prop) (g : X -> Y) (h : X -> Z) l : (forall x, In x l -> P (g x) (h x)) -> Forall2 P (map g l) (map h l).
Proof. induction l as [|x l IH]; cbn; intros H; constructor; auto. Qed.
Lemma in_combine_nth {X Y} (l : list X) (m : list Y) k dx dy : length l = length m -> (k < length l)%nat -> In (nth k l dx, nth k m dy) (combine l m).
Proof. intros H Hk. rewrite <- combine_nth by auto. apply nth_In. rewrite combine_length. lia. Qed.

Lemma leaves_shapes (args : list (lapl A)) axs extra eaxs : length axs = length args -> length eaxs = length extra ->
  map (fun l => reduced_shape (fst l) (snd l)) (leaves_of args axs extra eaxs) =
  map (fun j => reduced_shape (sh (nth j (xs_of args ++ extra) nd0)) (nth j (axs ++ eaxs) [])) (seq 0 (length args + length extra)).
Proof.
  intros H1 H2. unfold leaves_of. apply nth_ext with (d := []) (d' := []).
  - rewrite !map_length, app_length, !combine_length, !map_length, seq_length. lia.
  - intros j Hj. rewrite map_length, app_length, !combine_length, !map_length in Hj.
    rewrite (@nth_map_in _ _ (fun l => reduced_shape (fst l) (snd l)) _ _ (([] : shape), ([] : list nat))) by (rewrite app_length, !combine_length, !map_length; lia).
    rewrite (@nth_map_in _ _ (fun j => reduced_shape (sh (nth j (xs_of args ++ extra) nd0)) (nth j (axs ++ eaxs) [])) _ _ 0%nat) by (rewrite seq_length; lia).
    rewrite seq_nth by lia. cbn [Nat.add].
    assert (Hlx : length (xs_of args) = length args) by apply xs_length.
    destruct (Nat.lt_ge_cases j (length args)) as [Hlt|Hge].
    + rewrite (app_nth1 (combine _ _)) by (rewrite combine_length, map_length; lia). rewrite combine_nth by (rewrite map_length; auto). cbn [fst snd].
      rewrite (app_nth1 (xs_of args)) by lia. rewrite (app_nth1 axs) by lia. f_equal.
      rewrite (@nth_map_in _ _ (fun a => sh (lx a)) _ _ la0) by auto. rewrite xs_nth by auto. reflexivity.
    + rewrite (app_nth2 (combine _ _)) by (rewrite combine_length, map_length; lia). rewrite combine_length, map_length. rewrite H1, Nat.min_id.
      rewrite combine_nth by (rewrite map_length; auto). cbn [fst snd].
      rewrite (app_nth2 (xs_of args)) by lia. rewrite (app_nth2 axs) by lia. rewrite Hlx, H1. f_equal.
      rewrite (@nth_map_in _ _ (@sh A) _ _ nd0) by lia. reflexivity.
Qed.
(* batched in terms of the merged function *)
Lemma merged_batched f mg (args : list (lapl A)) axs extra eaxs brd : merge_ok mg (length args) (length extra) ->
  length axs = length args -> length eaxs = length extra ->
  batched f (mg _ axs eaxs) (mg _ (xs_of args) extra) -> brdcast_shape (leaves_of args axs extra eaxs) = Some brd ->
  let fm := merged f mg (length args) extra in
  exists C, sh (o_fwd fm (xs_of args)) = brd ++ C /\
  forall b ys es, inb b brd -> mslices axs (xs_of args) b ys -> mslices eaxs extra b es ->
    let fb := merged f mg (length args) es in
    sh (o_fwd fb ys) = C /\
    forall c a q a' q', inb c C -> (a < length args)%nat -> (a' < length args)%nat ->
      inb q (sh (nth a (xs_of args) nd0)) -> inb q' (sh (nth a' (xs_of args) nd0)) ->
      o_h fm (xs_of args) (b ++ c) a q a' q' =
      if in_slice (sh (nth a (xs_of args) nd0)) (nth a axs []) b q && in_slice (sh (nth a' (xs_of args) nd0)) (nth a' axs []) b q'
      then o_h fb ys c a (permute (sax (ndim (nth a (xs_of args) nd0)) (nth a axs [])) q) a' (permute (sax (ndim (nth a' (xs_of args) nd0)) (nth a' axs [])) q')
      else 0.
Proof.
  intros Hm H1 H2 HB Hbrd fm. destruct (merge_layout Hm) as (lay & Hp & E & Hlay).
  assert (Hlx : length (xs_of args) = length args) by apply xs_length.
  destruct HB as (Hlen & B & C & HB & HC & HH).
  rewrite (Hlay _ [] axs eaxs) in * by auto. rewrite (Hlay _ nd0 (xs_of args) extra) in * by auto.
  rewrite map2_map in HB.
  assert (HBB : B = brd).
  { unfold brdcast_shape in Hbrd. rewrite leaves_shapes in Hbrd by auto. eapply bshapes_perm; [exact HB|exact Hbrd|]. intros s. split; intros Hs.
    - apply in_map_iff in Hs. destruct Hs as (j & <- & Hj). apply (is_perm_In j Hp) in Hj.
      apply in_map_iff. exists j. split; [reflexivity|]. apply in_seq. lia.
    - apply in_map_iff in Hs. destruct Hs as (j & <- & Hj). apply in_seq in Hj.
      apply in_map_iff. exists j. split; [reflexivity|]. apply (is_perm_In j Hp). lia. }
  subst B. exists C. split.
  - unfold fm. cbn. rewrite (Hlay _ nd0 (xs_of args) extra) by auto. exact HC.
  - intros b ys es Hb (Y1 & Y2 & Y3) (E1 & E2 & E3) fb.
    assert (HF : Forall2 eqa (map2 (fun ax x => bslice ax b x) (map (fun j => nth j (axs ++ eaxs) []) lay) (map (fun j => nth j (xs_of args ++ extra) nd0) lay)) (mg _ ys es)).
    { rewrite map2_map, (Hlay _ nd0 ys es) by lia. apply F2_map. intros j Hj. apply (is_perm_In j Hp) in Hj.
      destruct (Nat.lt_ge_cases j (length args)) as [Hlt|Hge].
      - rewrite !app_nth1 by lia. apply Y3. lia.
      - rewrite !app_nth2 by lia. rewrite Hlx, H1, Y1, Hlx. apply E3. lia. }
    destruct (HH b _ Hb HF) as [K1 K2]. split; [exact K1|].
    intros c a q a' q' Hc Ha Ha' Hq Hq'. unfold fm, fb. cbn [o_h merged]. rewrite E1.
    rewrite (Hlay _ nd0 (xs_of args) extra) by auto.
    assert (HP : forall a, (a < length args)%nat ->
       (posof mg (length args) (length extra) a < length (map (fun j => nth j (xs_of args ++ extra) nd0) lay))%nat /\
       nth (posof mg (length args) (length extra) a) (map (fun j => nth j (xs_of args ++ extra) nd0) lay) nd0 = nth a (xs_of args) nd0 /\
       nth (posof mg (length args) (length extra) a) (map (fun j => nth j (axs ++ eaxs) []) lay) [] = nth a axs []).
    { intros x Hx. destruct (@merge_posof mg (length args) (length extra) (nd A) nd0 (xs_of args) extra x) as [P1 P2]; auto.
      destruct (@merge_posof mg (length args) (length extra) (list nat) [] axs eaxs x) as [_ P3]; auto.
      rewrite (Hlay _ nd0 (xs_of args) extra) in P2 by auto. rewrite (Hlay _ [] axs eaxs) in P3 by auto.
      rewrite map_length, (is_perm_length Hp). auto. }
    destruct (HP a Ha) as (P1 & P2 & P3). destruct (HP a' Ha') as (P1' & P2' & P3').
    rewrite (K2 c _ q _ q' Hc P1 P1'); rewrite ?P2, ?P2', ?P3, ?P3'; auto.
Qed.
Lemma quad_batched (fm fb : op A) (args : list (lapl A)) axs brd (ys : list (nd A)) b c (u v : nat -> ix -> A) :
  length ys = length args ->
  (forall a, (a < length args)%nat -> sh (nth a ys nd0) = permute (sax (ndim (nth a (xs_of args) nd0)) (nth a axs [])) (sh (nth a (xs_of args) nd0))) ->
  (forall a, (a < length args)%nat -> bto (reduced_shape (sh (nth a (xs_of args) nd0)) (nth a axs [])) brd) -> inb b brd ->
  (forall a q a' q', (a < length args)%nat -> (a' < length args)%nat ->
      inb q (sh (nth a (xs_of args) nd0)) -> inb q' (sh (nth a' (xs_of args) nd0)) ->
      o_h fm (xs_of args) (b ++ c) a q a' q' =
      if in_slice (sh (nth a (xs_of args) nd0)) (nth a axs []) b q && in_slice (sh (nth a' (xs_of args) nd0)) (nth a' axs []) b q'
      then o_h fb ys c a (permute (sax (ndim (nth a (xs_of args) nd0)) (nth a axs [])) q) a' (permute (sax (ndim (nth a' (xs_of args) nd0)) (nth a' axs [])) q')
      else 0) ->
  let W a j := wv (sh (nth a (xs_of args) nd0)) (nth a axs []) b j in
  quad fm (xs_of args) (b ++ c) u v = quad fb ys c (fun a j => u a (W a j)) (fun a j => v a (W a j)).
Proof.
  intros Hly Hsh Hbto Hb HH W. unfold quad. rewrite xs_length, Hly. apply sumn_ext. intros a Ha.
  assert (Hpw : forall a j, (a < length args)%nat -> inb j (sh (nth a ys nd0)) ->
     permute (sax (ndim (nth a (xs_of args) nd0)) (nth a axs [])) (W a j) = j).
  { intros x j Hx Hj. rewrite Hsh in Hj by auto. apply inb_length in Hj. rewrite permute_length in Hj. unfold W, wv, ndim in *.
    apply weave_axes; [apply sax_NoDup|apply sax_bound|exact Hj]. }
  etransitivity; [apply sumL_ext; intros q Hq; apply allix_spec in Hq|].
  - transitivity (if in_slice (sh (nth a (xs_of args) nd0)) (nth a axs []) b q then
      sumn (length args) (fun a' => sumL (allix (sh (nth a' ys nd0))) (fun j' =>
        o_h fb ys c a (permute (sax (ndim (nth a (xs_of args) nd0)) (nth a axs [])) q) a' j' * (u a q * v a' (W a' j')))) else 0).
    + destruct (in_slice (sh (nth a (xs_of args) nd0)) (nth a axs []) b q) eqn:Ein.
      * apply sumn_ext. intros a' Ha'.
        transitivity (sumL (allix (sh (nth a' (xs_of args) nd0))) (fun q' => if in_slice (sh (nth a' (xs_of args) nd0)) (nth a' axs []) b q' then
          o_h fb ys c a (permute (sax (ndim (nth a (xs_of args) nd0)) (nth a axs [])) q) a' (permute (sax (ndim (nth a' (xs_of args) nd0)) (nth a' axs [])) q') * (u a q * v a' q') else 0)).
        -- apply sumL_ext. intros q' Hq'. apply allix_spec in Hq'. rewrite HH by auto. rewrite Ein. cbn [andb].
           destruct (in_slice (sh (nth a' (xs_of args) nd0)) (nth a' axs []) b q'); [reflexivity|ring].
        -- rewrite (@sum_slice _ _ brd); auto. rewrite Hsh by auto. apply sumL_ext. intros j Hj. apply allix_spec in Hj.
           fold (W a' j). rewrite Hpw by (rewrite ?Hsh; auto). reflexivity.
      * apply sumn_zero. intros a' Ha'. apply sumL_zero. intros q' Hq'. apply allix_spec in Hq'. rewrite HH by auto. rewrite Ein. cbn [andb]. ring.
    + reflexivity.
  - rewrite (@sum_slice _ _ brd); auto. rewrite Hsh by auto. apply sumL_ext. intros j Hj. apply allix_spec in Hj.
    fold (W a j). apply sumn_ext. intros a' Ha'. apply sumL_ext. intros j' Hj'. rewrite Hpw by (rewrite ?Hsh; auto). reflexivity.
Qed.
End Slices.
