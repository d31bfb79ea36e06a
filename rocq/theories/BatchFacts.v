(* BatchFacts.v : the batching plan of utils.py (vmap_sequences, arg_squeeze_dims) slices arrays as numpy broadcasting does. *)
From Verif Require Export HessSpec OboFacts.
Set Implicit Arguments.

(* equality on all indices of the right length *)
Definition eql {X} (a b : nd X) : Prop := sh a = sh b /\ forall i, length i = ndim a -> at_ a i = at_ b i.
Lemma eql_eqa {X} (a b : nd X) : eql a b -> eqa a b.
Proof. intros [H1 H2]. split; auto. intros i Hi. apply H2. apply inb_length in Hi. exact Hi. Qed.
Lemma eql_trans {X} (a b c : nd X) : eql a b -> eql b c -> eql a c.
Proof. intros [H1 H2] [H3 H4]. split; [congruence|]. intros i Hi. rewrite H2 by auto. apply H4. unfold ndim in *. congruence. Qed.
Lemma eql_refl {X} (a : nd X) : eql a a.
Proof. split; auto. Qed.

Lemma dropn_length k l : k < length l -> length (dropn k l) = length l - 1.
Proof. revert k. induction l as [|x l IH]; intros [|k] H; cbn in *; try lia. rewrite IH by lia. lia. Qed.
Lemma insn_length k v l : k <= length l -> length (insn k v l) = S (length l).
Proof. revert k. induction l as [|x l IH]; intros [|k] H; cbn in *; try lia. rewrite IH by lia. lia. Qed.
Lemma take_eql {X} k j (a b : nd X) : k < ndim a -> eql a b -> eql (take k j a) (take k j b).
Proof.
  intros Hk [H1 H2]. split; [cbn; congruence|]. intros i Hi. cbn in *. unfold ndim in *. cbn in Hi.
  rewrite dropn_length in Hi by auto. apply H2. rewrite insn_length by lia. lia.
Qed.
Definition fixd {X} (kp : list nat) (v : ix) (x : nd X) : nd X :=
  Nd (permute kp (sh x)) (fun i => at_ x (map (fun d => if mem d kp then nth (pos d kp) i 0 else nth d v 0) (seq 0 (ndim x)))).
Lemma mem_In d l : mem d l = true <-> In d l.
Proof. apply existsb_eqb_In. Qed.
Lemma mem_nIn d l : mem d l = false <-> ~ In d l.
Proof. apply existsb_eqb_nIn. Qed.
Lemma dropn_app (l m : list nat) : forall x, dropn (length l) (l ++ x :: m) = l ++ m.
Proof. induction l as [|y l IH]; intros x; cbn; [auto|]. rewrite IH. reflexivity. Qed.
Lemma pos_app_l d l m : In d l -> pos d (l ++ m) = pos d l.
Proof.
  induction l as [|x l IH]; cbn; [tauto|]. intros H. destruct (Nat.eqb_spec x d); auto.
  rewrite IH; auto. destruct H; [congruence|auto].
Qed.
Lemma pos_app_r d l m : ~ In d l -> pos d (l ++ m) = length l + pos d m.
Proof. induction l as [|x l IH]; cbn; auto. intros H. destruct (Nat.eqb_spec x d); [tauto|]. rewrite IH; [lia|tauto]. Qed.
Lemma nth_insn k v l d : k <= length l -> nth d (insn k v l) 0 = if d <? k then nth d l 0 else if d =? k then v else nth (d - 1) l 0.
Proof.
  revert k d. induction l as [|x l IH]; intros [|k] d Hk; cbn in Hk; try lia; destruct d as [|d]; cbn; auto; try lia.
  - rewrite Nat.sub_0_r. destruct d; auto.
  - rewrite Nat.sub_0_r. destruct d; auto.
  - rewrite IH by lia. change (S d <? S k) with (d <? k). destruct (d <? k) eqn:E1; auto. destruct (d =? k) eqn:E2; auto.
    apply Nat.ltb_ge in E1. apply Nat.eqb_neq in E2. rewrite Nat.sub_0_r. destruct d as [|d]; [lia|]. cbn. rewrite Nat.sub_0_r. reflexivity.
Qed.
Lemma take_fixd {X} l k m j v (x : nd X) : NoDup (l ++ k :: m) -> (forall d, In d (l ++ k :: m) -> d < ndim x) -> length v = ndim x ->
  eql (take (length l) j (fixd (l ++ k :: m) v x)) (fixd (l ++ m) (upd k j v) x).
Proof.
  intros Hnd Hb Hv. split.
  - cbn. unfold permute. rewrite map_app. cbn [map]. rewrite <- (map_length (fun d => nth d (sh x) 0) l). rewrite dropn_app.
    rewrite map_app. reflexivity.
  - intros i Hi. cbn. f_equal. apply map_ext_in. intros d Hd. apply in_seq in Hd.
    cbn in Hi. unfold ndim in Hi. cbn in Hi. unfold permute in Hi. rewrite map_app in Hi. cbn [map] in Hi.
    rewrite <- (map_length (fun d => nth d (sh x) 0) l) in Hi. rewrite dropn_app in Hi. rewrite app_length, !map_length in Hi.
    apply NoDup_remove in Hnd. destruct Hnd as [Hnd Hk]. rewrite nth_upd.
    destruct (Nat.eqb_spec d k) as [->|Hne].
    + assert (mem k (l ++ k :: m) = true) as -> by (apply mem_In; apply in_or_app; cbn; auto).
      assert (mem k (l ++ m) = false) as -> by (apply mem_nIn; auto).
      rewrite pos_app_r by (intros H; apply Hk; apply in_or_app; auto). cbn. rewrite Nat.eqb_refl, Nat.add_0_r.
      rewrite nth_insn by lia. rewrite Nat.ltb_irrefl, Nat.eqb_refl. destruct (k <? length v) eqn:E; auto.
      apply Nat.ltb_ge in E. unfold ndim in Hv. assert (k < ndim x) by (apply Hb; apply in_or_app; cbn; auto). unfold ndim in *. lia.
    + cbn [andb]. destruct (mem d (l ++ m)) eqn:E.
      * assert (In d (l ++ m)) as Hin by (apply mem_In; auto).
        assert (mem d (l ++ k :: m) = true) as ->. { apply mem_In. apply in_app_or in Hin. apply in_or_app. cbn. tauto. }
        destruct (in_dec Nat.eq_dec d l) as [Hl|Hl].
        -- rewrite !pos_app_l by auto. rewrite nth_insn by lia. pose proof (pos_lt _ _ Hl). destruct (Nat.ltb_spec (pos d l) (length l)); [auto|lia].
        -- rewrite !pos_app_r by auto. cbn [pos]. destruct (Nat.eqb_spec k d); [congruence|].
           rewrite nth_insn by lia. destruct (Nat.ltb_spec (length l + S (pos d m)) (length l)); [lia|].
           destruct (Nat.eqb_spec (length l + S (pos d m)) (length l)); [lia|]. f_equal. lia.
      * assert (mem d (l ++ k :: m) = false) as ->. { apply mem_nIn in E. apply mem_nIn. intros H. apply E. apply in_app_or in H. apply in_or_app. cbn in H. destruct H as [H|[H|H]]; auto; congruence. }
        reflexivity.
Qed.
Lemma slice_loop {X} (x : nd X) ax : forall m i bb v y curr skipped, i + m = ndim x ->
  curr + skipped = i -> skipped = length (filter (fun d => mem d ax) (seq 0 i)) -> length v = ndim x ->
  length bb = length (filter (fun d => negb (mem d ax)) (seq i m)) ->
  eql y (fixd (filter (fun d => mem d ax) (seq 0 i) ++ filter (fun d => mem d ax || negb (nth d (sh x) 0 =? 1)) (seq i m)) v x) ->
  exists v', length v' = ndim x /\ eql (slice_seq (vmap_loop (sh x) ax (seq i m) curr skipped) bb y) (fixd (sax (ndim x) ax) v' x) /\ forall d, d < ndim x -> nth d v' 0 = if (i <=? d) && negb (mem d ax) && negb (nth d (sh x) 0 =? 1)
     then nth (pos d (filter (fun d => negb (mem d ax)) (seq i m))) bb 0 else nth d v 0.
Proof.
  induction m as [|m IH]; intros i bb v y curr skipped Him Hc Hs Hv Hbb Hy.
  - rewrite Nat.add_0_r in Him. subst i. cbn in *. exists v. split; auto. split.
    + rewrite app_nil_r in Hy. unfold sax. destruct bb; exact Hy.
    + intros d Hd. destruct (Nat.leb_spec (ndim x) d); [lia|]. reflexivity.
  - cbn [seq vmap_loop filter] in *. assert (Hpre : filter (fun d => mem d ax) (seq 0 (S i)) = filter (fun d => mem d ax) (seq 0 i) ++ if mem i ax then [i] else []).
    { rewrite seq_S, filter_app. cbn. destruct (mem i ax); reflexivity. }
    destruct (mem i ax) eqn:Em; cbn [negb orb] in *.
    + destruct (IH (S i) bb v y curr (S skipped)) as (v' & H1 & H2 & H3); try lia; auto.
      * rewrite Hpre, app_length. cbn. lia.
      * rewrite Hpre, <- app_assoc. exact Hy.
      * exists v'. split; auto. split; [exact H2|]. intros d Hd. rewrite H3 by auto.
        destruct (Nat.eq_dec d i) as [->|Hne].
        -- rewrite Em. cbn. rewrite !andb_false_r. reflexivity.
        -- assert ((S i <=? d) = (i <=? d)) as -> by (destruct (Nat.leb_spec (S i) d), (Nat.leb_spec i d); auto; lia). reflexivity.
    + unfold ndim in *. destruct (Nat.ltb_spec (length (sh x)) (length (sh x) - i + curr)); [lia|]. rewrite Hc.
      destruct bb as [|j bb]; [cbn in Hbb; lia|]. cbn in Hbb.
      destruct (Nat.eqb_spec (nth i (sh x) 0) 1) as [E1|E1]; cbn [negb] in *.
      * destruct (IH (S i) bb v y (S curr) skipped) as (v' & H1 & H2 & H3); try lia; auto.
        -- rewrite Hpre, app_nil_r. auto.
        -- rewrite Hpre, app_nil_r. exact Hy.
        -- exists v'. split; auto. split; [exact H2|]. intros d Hd. rewrite H3 by auto.
           destruct (Nat.eq_dec d i) as [->|Hne].
           ++ rewrite E1. cbn. rewrite !andb_false_r. reflexivity.
           ++ assert ((S i <=? d) = (i <=? d)) as -> by (destruct (Nat.leb_spec (S i) d), (Nat.leb_spec i d); auto; lia).
              cbn [pos]. destruct (Nat.eqb_spec i d); [lia|]. reflexivity.
      * assert (Hnd : NoDup (filter (fun d => mem d ax) (seq 0 i) ++ i :: filter (fun d => mem d ax || negb (nth d (sh x) 0 =? 1)) (seq (S i) m))).
        { apply NoDup_app_intro; [apply NoDup_filter, seq_NoDup| |].
          - constructor; [intros H2; apply filter_In in H2; destruct H2 as [H2 _]; apply in_seq in H2; lia|apply NoDup_filter, seq_NoDup].
          - intros d H1 H2. apply filter_In in H1. destruct H1 as [H1 _]. apply in_seq in H1. destruct H2 as [H2|H2]; [lia|].
            apply filter_In in H2. destruct H2 as [H2 _]. apply in_seq in H2. lia. }
        assert (Hbd : forall d, In d (filter (fun d => mem d ax) (seq 0 i) ++ i :: filter (fun d => mem d ax || negb (nth d (sh x) 0 =? 1)) (seq (S i) m)) -> d < ndim x).
        { unfold ndim. intros d Hd. apply in_app_or in Hd. destruct Hd as [Hd|[Hd|Hd]]; [|lia|]; apply filter_In in Hd; destruct Hd as [Hd _]; apply in_seq in Hd; lia. }
        destruct (IH (S i) bb (upd i j v) (take skipped j y) (S curr) skipped) as (v' & H1 & H2 & H3); try lia; auto.
        -- rewrite Hpre, app_nil_r. auto.
        -- rewrite upd_length. auto.
        -- rewrite Hpre, app_nil_r. eapply eql_trans; [apply take_eql; [|exact Hy]|].
           ++ destruct Hy as [Hy _]. unfold ndim. rewrite Hy. cbn. rewrite permute_length, app_length. cbn. lia.
           ++ subst skipped. apply take_fixd; auto.
        -- exists v'. split; auto. split; [exact H2|]. intros d Hd. rewrite H3 by auto. rewrite nth_upd.
           destruct (Nat.eq_dec d i) as [->|Hne].
           ++ destruct (Nat.leb_spec (S i) i); [lia|]. cbn [andb]. rewrite Nat.leb_refl, Em. destruct (Nat.eqb_spec (nth i (sh x) 0) 1); [lia|].
              rewrite Nat.eqb_refl. destruct (Nat.ltb_spec i (length v)); [|lia]. cbn. rewrite Nat.eqb_refl. reflexivity.
           ++ assert ((S i <=? d) = (i <=? d)) as -> by (destruct (Nat.leb_spec (S i) d), (Nat.leb_spec i d); auto; lia).
              destruct (Nat.eqb_spec d i); [lia|]. cbn [andb pos]. destruct (Nat.eqb_spec i d); [lia|]. reflexivity.
Qed.
Lemma sax_In n ax d : In d (sax n ax) <-> d < n /\ In d ax.
Proof. unfold sax. rewrite filter_In, in_seq, mem_In. intuition lia. Qed.
Lemma sax_NoDup n ax : NoDup (sax n ax).
Proof. apply NoDup_filter, seq_NoDup. Qed.
Lemma sax_keep n ax : keep_pos n (sax n ax) = keepax n ax.
Proof.
  unfold keep_pos, keepax. apply filter_ext_in. intros d Hd. apply in_seq in Hd. f_equal.
  destruct (mem d ax) eqn:E.
  - apply existsb_eqb_In, sax_In. apply mem_In in E. split; [lia|auto].
  - apply existsb_eqb_nIn. rewrite sax_In. apply mem_nIn in E. tauto.
Qed.
Lemma keepax_length n ax : NoDup ax -> (forall d, In d ax -> d < n) -> length (keepax n ax) = n - length ax.
Proof.
  intros Hn Hb. pose proof (axes_keep_perm Hn Hb) as H. apply is_perm_length in H. rewrite app_length in H.
  change (keep_pos n ax) with (keepax n ax) in H. lia.
Qed.
(* the plan of one leaf, before positions without any mapped leaf are dropped *)
Lemma slice_plan {X} (x : nd X) ax brd b : NoDup ax -> (forall d, In d ax -> d < ndim x) ->
  bto (reduced_shape (sh x) ax) brd -> inb b brd ->
  eql (slice_seq (vmap_sequence (sh x) brd ax) b (squeeze ax x)) (bslice ax b x).
Proof.
  intros Hn Hb Hbto Hi. assert (Hlb : length b = length brd) by (apply inb_length; auto).
  assert (Hlk : length (keepax (ndim x) ax) = ndim x - length ax) by (apply keepax_length; auto).
  assert (Hle : ndim x - length ax <= length brd).
  { apply bto_length in Hbto. unfold reduced_shape in Hbto. rewrite permute_length in Hbto. change (length (sh x)) with (ndim x) in Hbto. lia. }
  unfold vmap_sequence. change (length (sh x)) with (ndim x).
  set (k := length brd - (ndim x - length ax)).
  assert (Hdrop : forall Y k (sq : list (option nat)) (c : ix) (y : nd Y), k <= length c -> slice_seq (repeat None k ++ sq) c y = slice_seq sq (skipn k c) y).
  { clear. induction k as [|k IH]; intros sq c y H; cbn; auto. destruct c as [|j c]; cbn in *; [lia|]. apply IH. lia. }
  rewrite Hdrop by lia.
  destruct (@slice_loop _ x ax (ndim x) 0 (skipn k b) (repeat 0 (ndim x)) (squeeze ax x) 0 0) as (v' & H1 & H2 & H3); auto.
  - apply repeat_length.
  - rewrite skipn_length. change (filter (fun d => negb (mem d ax)) (seq 0 (ndim x))) with (keepax (ndim x) ax). lia.
  - cbn [filter seq app]. split; [reflexivity|]. intros i Hi'. unfold squeeze, fixd. cbn. f_equal. apply map_ext. intros d.
    destruct (mem d _); auto. symmetry. apply nth_repeat.
  - eapply eql_trans; [exact H2|]. split; [reflexivity|]. intros j Hj. cbn. f_equal. unfold weave. apply map_ext_in. intros d Hd.
    apply in_seq in Hd. change (existsb (Nat.eqb d) (sax (ndim x) ax)) with (mem d (sax (ndim x) ax)). destruct (mem d (sax (ndim x) ax)) eqn:E; auto.
    rewrite H3 by lia. apply mem_nIn in E. rewrite sax_In in E. assert (mem d ax = false) as -> by (apply mem_nIn; intros HH; apply E; split; [lia|auto]).
    rewrite sax_keep. cbn [Nat.leb negb andb].
    assert (Hp : pos d (keepax (ndim x) ax) < length (keepax (ndim x) ax)).
    { apply pos_lt. unfold keepax. apply filter_In. split; [apply in_seq; lia|]. apply negb_true_iff, mem_nIn. intros HH. apply E; split; [lia|auto]. }
    rewrite bproj_nth; [|rewrite permute_length; lia|rewrite permute_length; auto].
    rewrite permute_length. unfold permute. rewrite (nth_map_in (fun d => nth d (sh x) 0) _ 0 0 Hp). rewrite nth_pos.
    2:{ unfold keepax. apply filter_In. split; [apply in_seq; lia|]. apply negb_true_iff, mem_nIn. intros HH. apply E; split; [lia|auto]. }
    destruct (nth d (sh x) 0 =? 1); cbn [negb]; [apply nth_repeat|].
    change (filter (fun d => negb (mem d ax)) (seq 0 (ndim x))) with (keepax (ndim x) ax). rewrite nth_skip. f_equal. unfold k. lia.
Qed.
(* dropping positions that are not mapped *)
Lemma slice_select {X} (P : nat -> bool) : forall (sq : list (option nat)) (b : ix) (x : nd X) i, length b = length sq ->
  (forall k, k < length sq -> P (i + k) = false -> nth k sq None = None) ->
  slice_seq (map (fun k => nth (k - i) sq None) (filter P (seq i (length sq)))) (map (fun k => nth (k - i) b 0) (filter P (seq i (length sq)))) x = slice_seq sq b x.
Proof.
  induction sq as [|o sq IH]; intros b x i Hl HP; [reflexivity|]. destruct b as [|j b]; [discriminate|]. cbn [length seq filter] in *.
  assert (Hr : forall x : nd X, slice_seq (map (fun k => nth (k - i) (o :: sq) None) (filter P (seq (S i) (length sq)))) (map (fun k => nth (k - i) (j :: b) 0) (filter P (seq (S i) (length sq)))) x = slice_seq sq b x).
  { intros x'. rewrite <- (IH b x' (S i)); [|lia|].
    - f_equal; apply map_ext_in; intros k Hk; apply filter_In in Hk; destruct Hk as [Hk _]; apply in_seq in Hk; replace (k - i) with (S (k - S i)) by lia; reflexivity.
    - intros k Hk Hf. specialize (HP (S k)). rewrite Nat.add_succ_r in HP. cbn in HP. apply HP; [lia|exact Hf]. }
  destruct (P i) eqn:E.
  - cbn [map]. rewrite Nat.sub_diag. cbn [nth slice_seq]. destruct o as [d|]; apply Hr.
  - assert (o = None) as Ho by (apply (HP 0); [lia|rewrite Nat.add_0_r; exact E]). subst o. cbn [slice_seq]. apply Hr.
Qed.
Lemma vmap_loop_length s skip is_ : forall c sk, length (vmap_loop s skip is_ c sk) = length (filter (fun d => negb (mem d skip)) is_).
Proof.
  induction is_ as [|i is_ IH]; intros c sk; cbn [vmap_loop filter]; auto. destruct (mem i skip); cbn [negb]; auto.
  destruct (_ <? _); cbn; [rewrite IH; auto|]. destruct (_ =? _); cbn; rewrite IH; auto.
Qed.
Lemma vmap_sequence_length s brd ax : NoDup ax -> (forall d, In d ax -> d < length s) -> length s - length ax <= length brd ->
  length (vmap_sequence s brd ax) = length brd.
Proof.
  intros Hn Hb Hl. unfold vmap_sequence. rewrite app_length, repeat_length, vmap_loop_length.
  change (filter (fun d => negb (mem d ax)) (seq 0 (length s))) with (keepax (length s) ax). rewrite keepax_length by auto. lia.
Qed.
Definition jshift : option nat -> option nat := option_map S.
Lemma vmap_loop_jac k s ax : forall m i c sk, c + sk = i -> i + m = length s ->
  vmap_loop (k :: s) (jac_axes ax) (map S (seq i m)) c (S sk) = map jshift (vmap_loop s ax (seq i m) c sk).
Proof.
  induction m as [|m IH]; intros i c sk Hi Hm; cbn [seq map vmap_loop]; auto.
  assert (mem (S i) (jac_axes ax) = mem i ax) as ->.
  { unfold jac_axes. destruct (mem i ax) eqn:E.
    - apply mem_In. apply mem_In in E. apply in_or_app. left. apply in_map. auto.
    - apply mem_nIn. apply mem_nIn in E. intros H. apply in_app_or in H. destruct H as [H|[H|[]]]; [|lia].
      apply in_map_iff in H. destruct H as (y & Hy & H). assert (y = i) by lia. subst. auto. }
  destruct (mem i ax).
  - apply IH; lia.
  - cbn [length]. destruct (Nat.ltb_spec (S (length s)) (S (length s) - S i + c)); [lia|].
    destruct (Nat.ltb_spec (length s) (length s - i + c)); [lia|].
    rewrite Nat.add_succ_r. cbn [nth]. rewrite IH by lia. destruct (_ =? _); reflexivity.
Qed.
Lemma map_jshift_repeat k : map jshift (repeat None k) = repeat None k.
Proof. induction k; cbn; congruence. Qed.
Lemma vmap_sequence_jac k s brd ax : vmap_sequence (k :: s) brd (jac_axes ax) = map jshift (vmap_sequence s brd ax).
Proof.
  unfold vmap_sequence. rewrite map_app, map_jshift_repeat. f_equal.
  - f_equal. unfold jac_axes. rewrite app_length, map_length. cbn [length]. lia.
  - cbn [length seq vmap_loop]. assert (mem 0 (jac_axes ax) = true) as ->.
    { apply mem_In. unfold jac_axes. apply in_or_app. cbn. auto. }
    rewrite <- seq_shift. apply vmap_loop_jac; auto.
Qed.
(* ---------- the leaves of one evaluation ---------- *)
Definition leaf_ok (l : shape * list nat) : Prop := NoDup (snd l) /\ forall d, In d (snd l) -> d < length (fst l).
Lemma brd_bto leaves brd l : brdcast_shape leaves = Some brd -> In l leaves -> bto (reduced_shape (fst l) (snd l)) brd.
Proof. intros H Hl. apply bshapes_spec in H. destruct H as [H _]. apply H. apply in_map_iff. exists l. auto. Qed.
Lemma brd_len leaves brd l : brdcast_shape leaves = Some brd -> In l leaves -> leaf_ok l -> length (fst l) - length (snd l) <= length brd.
Proof.
  intros H Hl [H1 H2]. pose proof (@brd_bto _ _ l H Hl) as Hl2; clear Hl; rename Hl2 into Hl. apply bto_length in Hl. unfold reduced_shape in Hl.
  rewrite permute_length, keepax_length in Hl; auto.
Qed.
Lemma leaf_none leaves brd l k : In l leaves -> k < length brd -> ~ In k (keep_idx leaves brd) ->
  nth k (vmap_sequence (fst l) brd (snd l)) None = None.
Proof.
  intros Hl Hk Hn. destruct (nth k (vmap_sequence (fst l) brd (snd l)) None) eqn:E; auto. exfalso. apply Hn.
  unfold keep_idx. apply filter_In. split; [apply in_seq; lia|]. apply existsb_exists. exists l. rewrite E. auto.
Qed.
Lemma keep_idx_In leaves brd k : In k (keep_idx leaves brd) -> k < length brd.
Proof. unfold keep_idx. intros H. apply filter_In in H. destruct H as [H _]. apply in_seq in H. lia. Qed.
Lemma slice_keep {X} leaves brd (sq : list (option nat)) b (x : nd X) : length sq = length brd -> length b = length brd ->
  (forall k, k < length brd -> ~ In k (keep_idx leaves brd) -> nth k sq None = None) ->
  slice_seq (map (fun k => nth k sq None) (keep_idx leaves brd)) (permute (keep_idx leaves brd) b) x = slice_seq sq b x.
Proof.
  intros Hs Hb HP. unfold keep_idx in *. set (P := fun i => existsb _ leaves) in *.
  rewrite <- (@slice_select _ P sq b x 0); [|congruence|].
  - rewrite Hs. unfold permute. f_equal; apply map_ext; intros k; rewrite Nat.sub_0_r; reflexivity.
  - rewrite Hs. intros k Hk Hf. apply HP; auto. intros H. apply filter_In in H. destruct H as [_ H]. cbn in Hf. congruence.
Qed.
Theorem leaf_slice {X} leaves brd ax b (x : nd X) : brdcast_shape leaves = Some brd -> In (sh x, ax) leaves -> leaf_ok (sh x, ax) -> inb b brd ->
  eql (slice_seq (leaf_seq leaves brd (sh x, ax)) (permute (keep_idx leaves brd) b) (squeeze ax x)) (bslice ax b x).
Proof.
  intros HB Hin Hok Hb. pose proof (@brd_len _ _ _ HB Hin Hok) as Hlen. destruct Hok as [H1 H2]. cbn in *.
  unfold leaf_seq. rewrite slice_keep.
  - apply slice_plan; auto. apply (@brd_bto _ _ _ HB Hin).
  - cbn. apply vmap_sequence_length; auto.
  - apply inb_length; auto.
  - intros k Hk Hn. apply (@leaf_none leaves brd (sh x, ax)); auto.
Qed.
(* the Jacobian of a leaf (one more leading axis) *)
Definition jslice {X} (s : shape) (ax : list nat) (b : ix) (x : nd X) : nd X :=
  let t := sax (length s) ax in
  Nd (rows x :: permute t s) (fun j => at_ x (hd 0 j :: weave (length s) t (bproj (permute (keep_pos (length s) t) s) b) (tl j))).
Lemma sax_jac n ax : sax (S n) (jac_axes ax) = 0 :: map S (sax n ax).
Proof.
  unfold sax. cbn [seq filter]. assert (mem 0 (jac_axes ax) = true) as -> by (apply mem_In; unfold jac_axes; apply in_or_app; cbn; auto).
  f_equal. rewrite <- seq_shift. induction (seq 0 n) as [|i l IH]; cbn; auto.
  assert (mem (S i) (jac_axes ax) = mem i ax) as ->.
  { unfold jac_axes. destruct (mem i ax) eqn:E.
    - apply mem_In. apply mem_In in E. apply in_or_app. left. apply in_map. auto.
    - apply mem_nIn. apply mem_nIn in E. intros H. apply in_app_or in H. destruct H as [H|[H|[]]]; [|lia].
      apply in_map_iff in H. destruct H as (y & Hy & H). assert (y = i) by lia. subst. auto. }
  destruct (mem i ax); cbn; rewrite IH; auto.
Qed.
Lemma keep_pos_jac n ax : keep_pos (S n) (0 :: map S ax) = map S (keep_pos n ax).
Proof.
  unfold keep_pos. cbn [seq]. rewrite <- seq_shift. cbn [filter]. change (existsb (Nat.eqb 0) (0 :: map S ax)) with true. cbn [negb].
  induction (seq 0 n) as [|i l IH]; [reflexivity|]. cbn [map filter].
  assert (existsb (Nat.eqb (S i)) (0 :: map S ax) = existsb (Nat.eqb i) ax) as ->.
  { clear. change (existsb (Nat.eqb (S i)) (0 :: map S ax)) with (existsb (Nat.eqb (S i)) (map S ax)).
    induction ax as [|a ax IH]; [reflexivity|]. cbn [map existsb]. rewrite IH. reflexivity. }
  destruct (existsb (Nat.eqb i) ax); cbn [negb map]; rewrite IH; reflexivity.
Qed.
Lemma pos_map_S d l : pos (S d) (map S l) = pos d l.
Proof. induction l as [|x l IH]; cbn; auto. rewrite IH. reflexivity. Qed.
Lemma mem_map_S d l : existsb (Nat.eqb (S d)) (map S l) = existsb (Nat.eqb d) l.
Proof. induction l as [|a l IH]; [reflexivity|]. cbn [map existsb]. rewrite IH. reflexivity. Qed.
Lemma permute_map_S l k s : permute (map S l) (k :: s) = permute l s.
Proof. unfold permute. rewrite map_map. reflexivity. Qed.
Lemma bslice_jac {X} k s ax b (x : nd X) : sh x = k :: s -> eql (bslice (jac_axes ax) b x) (jslice s ax b x).
Proof.
  intros Hs. unfold bslice, jslice, ndim. rewrite Hs. cbn [length]. rewrite sax_jac, keep_pos_jac. rewrite permute_cons, !permute_map_S. split.
  - cbn [sh nth]. unfold rows. rewrite Hs. reflexivity.
  - intros j Hj. cbn [sh at_] in *. destruct j as [|r j]; [cbn in Hj; discriminate|]. cbn [hd tl].
    f_equal. unfold weave. rewrite keep_pos_jac. cbn [seq map].
    f_equal. rewrite <- seq_shift, map_map. apply map_ext. intros d.
    change (existsb (Nat.eqb (S d)) (0 :: map S (sax (length s) ax))) with (existsb (Nat.eqb (S d)) (map S (sax (length s) ax))).
    rewrite mem_map_S. change (pos (S d) (0 :: map S (sax (length s) ax))) with (S (pos (S d) (map S (sax (length s) ax)))).
    rewrite !pos_map_S. destruct (existsb _ _); auto.
Qed.
Theorem jac_slice {X} leaves brd ax b (x : nd X) k s : brdcast_shape leaves = Some brd -> In (s, ax) leaves -> leaf_ok (s, ax) -> inb b brd -> sh x = k :: s ->
  eql (slice_seq (map (fun i => nth i (vmap_sequence (sh x) brd (jac_axes ax)) None) (keep_idx leaves brd)) (permute (keep_idx leaves brd) b) (squeeze (jac_axes ax) x)) (jslice s ax b x).
Proof.
  intros HB Hin Hok Hb Hs. pose proof (@brd_len _ _ _ HB Hin Hok) as Hlen. pose proof Hok as [H1 H2]. cbn in *.
  eapply eql_trans; [|apply (@bslice_jac _ k s); exact Hs].
  rewrite slice_keep.
  - apply slice_plan; auto.
    + unfold jac_axes. apply NoDup_app_intro; [apply FinFun.Injective_map_NoDup; auto; intros x1 y1; lia|repeat constructor; auto|].
      intros d Hd [Hd'|[]]. apply in_map_iff in Hd. destruct Hd as (y & Hy & _). lia.
    + unfold jac_axes, ndim. rewrite Hs. cbn. intros d Hd. apply in_app_or in Hd. destruct Hd as [Hd|[Hd|[]]]; [|lia].
      apply in_map_iff in Hd. destruct Hd as (y & Hy & Hd). apply H2 in Hd. lia.
    + pose proof (@brd_bto _ _ _ HB Hin) as Hbt. cbn in Hbt. unfold reduced_shape in *. rewrite Hs. cbn [length].
      rewrite <- sax_keep, sax_jac, keep_pos_jac, permute_map_S, sax_keep. exact Hbt.
  - rewrite Hs, vmap_sequence_jac, map_length. apply vmap_sequence_length; auto.
  - apply inb_length; auto.
  - rewrite Hs, vmap_sequence_jac. intros kk Hk Hn. pose proof (@leaf_none leaves brd (s, ax) kk Hin Hk Hn) as E. cbn in E.
    change (@None nat) with (jshift None) at 1. rewrite (map_nth jshift), E. reflexivity.
Qed.
