(* SumFacts.v : sparse_sum_jvp (reduce_sum of a sparse Jacobian) is exact *)
From Verif Require Export IndexFacts.
From Coq Require Import ZifyBool.
Set Implicit Arguments.

(* ---- kept and reduced axes ---- *)
Lemma keep_pos_In n axes d : In d (keep_pos n axes) <-> d < n /\ ~ In d axes.
Proof.
  unfold keep_pos. rewrite filter_In, in_seq. rewrite negb_true_iff, existsb_eqb_nIn. intuition lia.
Qed.
Lemma keep_pos_NoDup n axes : NoDup (keep_pos n axes).
Proof. apply NoDup_filter, seq_NoDup. Qed.
Lemma axes_keep_perm n axes : NoDup axes -> (forall d, In d axes -> d < n) -> is_perm (axes ++ keep_pos n axes) n.
Proof.
  intros Hnd Hlt. apply NoDup_Permutation.
  - apply NoDup_app_intro; auto using keep_pos_NoDup. intros x H1 H2. apply keep_pos_In in H2. tauto.
  - apply seq_NoDup.
  - intros x. rewrite in_app_iff, keep_pos_In, in_seq. destruct (in_dec Nat.eq_dec x axes); intuition lia || (apply Hlt in i; lia).
Qed.
Lemma weave_length n axes i j : length (weave n axes i j) = n.
Proof. unfold weave. rewrite map_length, seq_length. auto. Qed.
Lemma weave_nth n axes i j d : d < n -> nth d (weave n axes i j) 0 =
  if existsb (Nat.eqb d) axes then nth (pos d axes) j 0 else nth (pos d (keep_pos n axes)) i 0.
Proof.
  intros H. unfold weave. rewrite nth_map_in with (dx := 0) by (rewrite seq_length; auto). rewrite seq_nth by auto. reflexivity.
Qed.
Lemma weave_axes n axes i j : NoDup axes -> (forall d, In d axes -> d < n) -> length j = length axes ->
  permute axes (weave n axes i j) = j.
Proof.
  intros Hnd Hlt Hj. unfold permute. apply nth_ext with (d := 0) (d' := 0); rewrite map_length; [auto|].
  intros k Hk. rewrite nth_map_in with (dx := 0) by auto.
  assert (In (nth k axes 0) axes) as Hin by (apply nth_In; auto).
  rewrite weave_nth by auto. rewrite (proj2 (existsb_eqb_In _ _) Hin). rewrite pos_nth; auto.
Qed.
Lemma weave_keep n axes i j : length i = length (keep_pos n axes) ->
  permute (keep_pos n axes) (weave n axes i j) = i.
Proof.
  intros Hi. unfold permute. apply nth_ext with (d := 0) (d' := 0); rewrite map_length; [auto|].
  intros k Hk. rewrite nth_map_in with (dx := 0) by auto.
  assert (In (nth k (keep_pos n axes) 0) (keep_pos n axes)) as Hin by (apply nth_In; auto).
  apply keep_pos_In in Hin. rewrite weave_nth by tauto. rewrite (proj2 (existsb_eqb_nIn _ _)) by tauto.
  rewrite pos_nth; auto using keep_pos_NoDup.
Qed.
Lemma weave_permute n axes q : length q = n -> (forall d, In d axes -> d < n) ->
  weave n axes (permute (keep_pos n axes) q) (permute axes q) = q.
Proof.
  intros Hq Hlt. apply nth_ext with (d := 0) (d' := 0); rewrite weave_length; [auto|]. intros d Hd.
  rewrite weave_nth by auto. destruct (existsb (Nat.eqb d) axes) eqn:E.
  - apply existsb_eqb_In in E. unfold permute. rewrite nth_map_in with (dx := 0) by (apply pos_lt; auto).
    rewrite nth_pos; auto.
  - apply existsb_eqb_nIn in E. assert (In d (keep_pos n axes)) as Hin by (apply keep_pos_In; auto).
    unfold permute. rewrite nth_map_in with (dx := 0) by (apply pos_lt; auto). rewrite nth_pos; auto.
Qed.
Lemma weave_inb axes s i j : NoDup axes -> (forall d, In d axes -> d < length s) ->
  inb i (permute (keep_pos (length s) axes) s) -> inb j (permute axes s) -> inb (weave (length s) axes i j) s.
Proof.
  intros Hnd Hlt Hi Hj. apply inb_of_nth; [apply weave_length|]. intros d Hd. rewrite weave_nth by auto.
  destruct (existsb (Nat.eqb d) axes) eqn:E.
  - apply existsb_eqb_In in E. pose proof (pos_lt _ _ E) as Hp.
    pose proof (inb_nth Hj (d := pos d axes)) as H. rewrite permute_length in H. specialize (H Hp).
    unfold permute in H at 1. rewrite nth_map_in with (dx := 0) in H by auto. rewrite nth_pos in H; auto.
  - apply existsb_eqb_nIn in E. assert (In d (keep_pos (length s) axes)) as Hin by (apply keep_pos_In; auto).
    pose proof (pos_lt _ _ Hin) as Hp. pose proof (inb_nth Hi (d := pos d (keep_pos (length s) axes))) as H.
    rewrite permute_length in H. specialize (H Hp).
    unfold permute in H. rewrite nth_map_in with (dx := 0) in H by auto. rewrite nth_pos in H; auto.
Qed.
Lemma permute_cons d p l : permute (d :: p) l = nth d l 0 :: permute p l.
Proof. reflexivity. Qed.
Section S.
Context {A : Type} {RA : CRing A}.
Add Ring Aring7 : (@rth A RA).
Open Scope cr_scope.

(* a sum over all positions splits into kept and reduced coordinates *)
Lemma sum_weave axes s (F : ix -> A) : NoDup axes -> (forall d, In d axes -> (d < length s)%nat) ->
  sumL (allix s) F = sumL (allix (permute (keep_pos (length s) axes) s)) (fun i =>
    sumL (allix (permute axes s)) (fun j => F (weave (length s) axes i j))).
Proof.
  intros Hnd Hlt. set (t := permute (keep_pos (length s) axes) s). set (u := permute axes s).
  transitivity (sumL (flat_map (fun i => map (fun j => weave (length s) axes i j) (allix u)) (allix t)) F).
  2:{ rewrite sumL_flat_map. apply sumL_ext. intros i _. apply sumL_map. }
  apply sumL_perm. apply NoDup_Permutation.
  - apply allix_NoDup.
  - assert (forall l, NoDup l -> (forall i, In i l -> inb i t) ->
      NoDup (flat_map (fun i => map (fun j => weave (length s) axes i j) (allix u)) l)) as H.
    { induction l as [|i l IH]; intros Hl Hin; cbn; [constructor|]. inversion Hl as [|? ? Hni Hl']; subst.
      assert (length i = length (keep_pos (length s) axes)) as Hi.
      { rewrite (inb_length (Hin i (or_introl eq_refl))). unfold t. apply permute_length. }
      apply NoDup_app_intro.
      - assert (forall l', NoDup l' -> (forall j, In j l' -> inb j u) -> NoDup (map (fun j => weave (length s) axes i j) l')) as H'.
        { induction l' as [|j l' IH']; intros Hl2 Hin2; cbn; [constructor|]. inversion Hl2 as [|? ? Hnj Hl2']; subst.
          constructor; [|apply IH'; auto; intros; apply Hin2; cbn; auto]. intros Hc. apply in_map_iff in Hc.
          destruct Hc as (j' & E & Hj'). apply Hnj. assert (j' = j); [|congruence].
          assert (length j = length axes) as L1 by (rewrite (inb_length (Hin2 j (or_introl eq_refl))); apply permute_length).
          assert (length j' = length axes) as L2 by (rewrite (inb_length (Hin2 j' (or_intror Hj'))); apply permute_length).
          rewrite <- (@weave_axes (length s) axes i j) by auto. rewrite <- (@weave_axes (length s) axes i j') by auto. congruence. }
        apply H'; [apply allix_NoDup|]. intros j Hj. apply allix_spec; auto.
      - apply IH; auto. intros; apply Hin; cbn; auto.
      - intros x Hx Hy. apply in_map_iff in Hx. destruct Hx as (j & <- & Hj). apply in_flat_map in Hy.
        destruct Hy as (i' & Hi' & Hy). apply in_map_iff in Hy. destruct Hy as (j' & E & Hj').
        apply Hni. assert (i' = i); [|congruence].
        assert (length i' = length (keep_pos (length s) axes)) as Hli'.
        { rewrite (inb_length (Hin i' (or_intror Hi'))). apply permute_length. }
        rewrite <- (@weave_keep (length s) axes i j) by auto. rewrite <- (@weave_keep (length s) axes i' j') by auto. congruence. }
    apply H; [apply allix_NoDup|]. intros i Hi. apply allix_spec; auto.
  - intros q. rewrite allix_spec, in_flat_map. split.
    + intros Hq. exists (permute (keep_pos (length s) axes) q). split.
      * apply allix_spec. apply permute_inb; auto. intros d Hd. apply keep_pos_In in Hd. tauto.
      * apply in_map_iff. exists (permute axes q). split.
        -- apply weave_permute; auto. apply inb_length; auto.
        -- apply allix_spec. apply permute_inb; auto.
    + intros (i & Hi & H). apply in_map_iff in H. destruct H as (j & <- & Hj). apply allix_spec in Hi, Hj.
      apply weave_inb; auto.
Qed.

(* ---- the block segment sum of jvp.py:88-107 ---- *)
Lemma seg_core (jr2 : nd A) (ir2 : nd Z) R t out_dim : sh jr2 = R :: t -> sh ir2 = R :: t ->
  let (ic, rep) := compact ir2 in
  let vax := filter (fun i => negb (existsb (Nat.eqb i) rep) && (0 <? i)%nat) (seq 0 (ndim ic)) in
  let norder := 0%nat :: vax ++ rep in
  let it := transpose norder ic in
  let it2 := Nd (firstn (1 + length vax) (sh it)) (fun i => at_ it (i ++ repeat 0%nat (length rep))) in
  let jt := transpose norder jr2 in
  let V := prod (tl (sh it2)) in let W := prod (skipn (1 + length vax) (sh jt)) in
  let i3 := reshape [R; V] it2 in let j3 := reshape [R; V; W] jt in
  let oj := Nd [out_dim; V; W] (fun i => sumn R (fun r =>
               if Z.eqb (at_ i3 [r; nth 1 i 0%nat]) (Z.of_nat (nth 0 i 0%nat)) then at_ j3 [r; nth 1 i 0%nat; nth 2 i 0%nat] else 0)) in
  let o2 := reshape (out_dim :: tl (sh jt)) oj in
  let o3 := transpose (argsort norder) o2 in
  let o4 := reshape (out_dim :: t) o3 in
  sh o4 = out_dim :: t /\
  forall q p, (q < out_dim)%nat -> inb p t ->
    at_ o4 (q :: p) = sumn R (fun r => if Z.eqb (at_ ir2 (r :: p)) (Z.of_nat q) then at_ jr2 (r :: p) else 0).
Proof.
  intros Hj Hi. destruct (compact ir2) as [ic rep] eqn:Ec. unfold compact in Ec. apply compact_loop_spec in Ec.
  unfold ndim in Ec. rewrite Hi in Ec. cbn [length] in Ec. replace (S (length t) - 1)%nat with (length t) in Ec by lia.
  destruct Ec as (Hinc & Hnd & Hs & Hat & Hz). specialize (Hnd (seq_NoDup _ _)).
  assert (forall d, In d rep -> (1 <= d < S (length t))%nat) as Hrep.
  { intros d Hd. apply Hinc in Hd. apply in_seq in Hd. lia. }
  assert (ndim ic = S (length t)) as Hn by (unfold ndim; rewrite Hs, map_length, seq_length; auto).
  rewrite Hn. intros vax.
  assert (forall d, In d vax <-> (1 <= d < S (length t))%nat /\ ~ In d rep) as Hvax.
  { intros d. unfold vax. rewrite filter_In, in_seq, andb_true_iff, negb_true_iff, existsb_eqb_nIn, Nat.ltb_lt. intuition lia. }
  intros norder.
  assert (is_perm norder (S (length t))) as Hp.
  { apply NoDup_Permutation.
    - constructor.
      + rewrite in_app_iff. intros [H|H]; [apply Hvax in H; lia|apply Hrep in H; lia].
      + apply NoDup_app_intro; auto.
        * apply NoDup_filter, seq_NoDup.
        * intros x H1 H2. apply Hvax in H1. tauto.
    - apply seq_NoDup.
    - intros x. unfold norder. cbn [In]. rewrite in_app_iff, in_seq, Hvax. split.
      + intros [<-|[H|H]]; try lia. apply Hrep in H. lia.
      + intros H. destruct (Nat.eq_dec 0 x); [auto|right]. destruct (in_dec Nat.eq_dec x rep); [auto|left]. split; auto. lia. }
  intros it it2 jt V W i3 j3 oj o2 o3 o4.
  assert (forall l : list nat, nth 0 (0%nat :: l) 0%nat = 0%nat) as H0 by auto.
  assert (sh jt = R :: permute vax (R :: t) ++ permute rep (R :: t)) as Hjt.
  { unfold jt. rewrite transpose_sh, Hj. unfold norder. rewrite permute_cons. cbn [nth].
    rewrite permute_app. reflexivity. }
  assert (existsb (Nat.eqb 0) rep = false) as Hr0 by (apply existsb_eqb_nIn; intros H; apply Hrep in H; lia).
  assert (sh it = R :: permute vax (R :: t) ++ permute rep (sh ic)) as Hit.
  { unfold it. rewrite transpose_sh. unfold norder. rewrite permute_cons. f_equal.
    - rewrite Hs. cbn [seq length map]. rewrite Hr0. reflexivity.
    - rewrite permute_app. f_equal. apply map_ext_in. intros d Hd. apply Hvax in Hd. rewrite Hs.
      rewrite nth_map_in with (dx := 0%nat) by (rewrite seq_length; cbn [length]; lia). rewrite seq_nth by (cbn [length]; lia).
      cbn [plus]. rewrite (proj2 (existsb_eqb_nIn _ _)) by tauto. reflexivity. }
  assert (sh it2 = R :: permute vax (R :: t)) as Hit2.
  { unfold it2. cbn [sh]. rewrite Hit. cbn [plus firstn]. f_equal. apply firstn_app_exact. apply permute_length. }
  assert (V = prod (permute vax (R :: t))) as HV by (unfold V; rewrite Hit2; reflexivity).
  assert (W = prod (permute rep (R :: t))) as HW.
  { unfold W. rewrite Hjt. cbn [plus skipn]. f_equal. apply skipn_app_exact. apply permute_length. }
  assert (sh o2 = permute norder (out_dim :: t)) as Ho2.
  { unfold o2. cbn [reshape sh]. rewrite Hjt. cbn [tl]. unfold norder. rewrite permute_cons. cbn [nth]. f_equal.
    rewrite permute_app. f_equal; apply map_ext_in; intros d Hd; [apply Hvax in Hd|apply Hrep in Hd]; destruct d; auto; lia. }
  assert (sh o3 = out_dim :: t) as Ho3.
  { unfold o3. rewrite transpose_sh, Ho2. apply permute_argsort with (n := S (length t)); auto. }
  assert (ndim o2 = S (length t)) as Hno2 by (unfold ndim; rewrite Ho2, permute_length; apply (is_perm_length Hp)).
  split; [reflexivity|]. intros q p Hq Hpt. pose proof (inb_length Hpt) as Hlp.
  assert (at_ o4 (q :: p) = at_ o3 (q :: p)) as E4.
  { unfold o4. apply reshape_ravel_eq; [rewrite Ho3; apply inb_cons; auto|]. rewrite Ho3. reflexivity. }
  rewrite E4. unfold o3. rewrite transpose_argsort_at by (rewrite Hno2; auto; cbn; lia).
  set (v := permute vax (q :: p)). set (w := permute rep (q :: p)).
  assert (forall x, permute norder (x :: p) = x :: v ++ w) as Hperm.
  { intros x. unfold norder. rewrite permute_cons. cbn [nth]. f_equal.
    rewrite permute_app. unfold v, w. f_equal; apply permute_ext; intros d Hd; [apply Hvax in Hd|apply Hrep in Hd]; destruct d; auto; lia. }
  rewrite Hperm.
  assert (inb v (permute vax (R :: t))) as Hv.
  { unfold v. rewrite (permute_ext vax (R :: t) (out_dim :: t)).
    - apply permute_inb; [|apply inb_cons; auto]. intros d Hd. apply Hvax in Hd. cbn. lia.
    - intros d Hd. apply Hvax in Hd. destruct d; [lia|]. reflexivity. }
  assert (inb w (permute rep (R :: t))) as Hw.
  { unfold w. rewrite (permute_ext rep (R :: t) (out_dim :: t)).
    - apply permute_inb; [|apply inb_cons; auto]. intros d Hd. apply Hrep in Hd. cbn. lia.
    - intros d Hd. apply Hrep in Hd. destruct d; [lia|]. reflexivity. }
  set (vi := ravel_ix (permute vax (R :: t)) v). set (wi := ravel_ix (permute rep (R :: t)) w).
  assert (vi < V)%nat as Hvi by (rewrite HV; apply ravel_lt; auto).
  assert (wi < W)%nat as Hwi by (rewrite HW; apply ravel_lt; auto).
  assert (at_ o2 (q :: v ++ w) = at_ oj [q; vi; wi]) as E2.
  { unfold o2. apply reshape_ravel_eq.
    - repeat constructor; auto.
    - cbn [sh oj]. rewrite Hjt. cbn [tl ravel_ix prod]. rewrite ravel_app by (apply inb_length; auto).
      rewrite prod_app, HV, HW. fold vi wi. lia. }
  rewrite E2. cbn [oj at_ nth]. apply sumn_ext. intros r Hr.
  assert (at_ i3 [r; vi] = at_ ir2 (r :: p)) as Ei.
  { unfold i3. rewrite HV. rewrite (reshape2_at _ Hit2) by (auto; rewrite <- HV; auto).
    unfold vi. rewrite unravel_ravel by auto. unfold it2. cbn [at_].
    rewrite (Hz (r :: p)) by (apply inb_cons; auto).
    assert (zeros rep (zeros rep (r :: p)) = zeros rep (r :: p)) as Hzz.
    { apply nth_ext with (d := 0%nat) (d' := 0%nat); rewrite !zeros_length; auto. intros d Hd.
      rewrite !zeros_nth by (rewrite ?zeros_length; auto). destruct (existsb (Nat.eqb d) rep); auto. }
    rewrite <- Hzz. rewrite <- Hat. rewrite <- (@transpose_at _ norder ic (zeros rep (r :: p))); [|rewrite Hn; auto|rewrite Hn, zeros_length; cbn; lia].
    fold it. f_equal. unfold norder. rewrite permute_cons. cbn [app]. f_equal.
    - rewrite zeros_nth by (cbn; lia). rewrite Hr0. reflexivity.
    - rewrite permute_app. f_equal.
      + apply permute_ext. intros d Hd. apply Hvax in Hd. rewrite zeros_nth by (cbn; lia).
        rewrite (proj2 (existsb_eqb_nIn _ _)) by tauto. destruct d; [lia|]. reflexivity.
      + unfold permute. rewrite (map_ext_in _ (fun _ => 0%nat)).
        { clear. induction rep; cbn; auto. f_equal. auto. }
        intros d Hd. rewrite zeros_nth by (cbn [length]; apply Hrep in Hd; lia). rewrite (proj2 (existsb_eqb_In _ _)); auto. }
  rewrite Ei.
  assert (at_ j3 [r; vi; wi] = at_ jr2 (r :: p)) as Ej.
  { rewrite <- (@transpose_at _ norder jr2 (r :: p)); [|unfold ndim; rewrite Hj; auto|unfold ndim; rewrite Hj; cbn; lia].
    fold jt. rewrite Hperm. unfold j3. apply reshape_ravel_eq.
    - rewrite Hjt. apply inb_cons. split; auto. apply inb_app; auto.
    - rewrite Hjt. cbn [ravel_ix prod]. rewrite ravel_app by (apply inb_length; auto).
      rewrite prod_app, HV, HW. fold vi wi. lia. }
  rewrite Ej. reflexivity.
Qed.

Lemma uniq_size_In mo (col : list Z) z : (length (uniqZ col) <= mo)%nat -> In z col -> In z (uniq_size mo (-1)%Z col).
Proof.
  intros Hm Hz. unfold uniq_size. apply in_or_app. left. rewrite firstn_all2 by auto. apply uniqZ_In. auto.
Qed.
Lemma uniq_size_inv mo (col : list Z) z : In z (uniq_size mo (-1)%Z col) -> In z col \/ z = (-1)%Z.
Proof.
  unfold uniq_size. intros H. apply in_app_or in H. destruct H as [H|H].
  - left. apply uniqZ_In. rewrite <- (firstn_skipn mo). apply in_or_app. auto.
  - right. apply repeat_spec in H. auto.
Qed.
Lemma uniq_size_length mo (col : list Z) : (length (uniqZ col) <= mo)%nat -> length (uniq_size mo (-1)%Z col) = mo.
Proof. intros H. unfold uniq_size. rewrite app_length, firstn_length, repeat_length. lia. Qed.
Lemma uniq_size_distinct mo (col : list Z) r r' : (r < length (uniq_size mo (-1)%Z col))%nat -> (r' < length (uniq_size mo (-1)%Z col))%nat ->
  (0 <= nth r (uniq_size mo (-1)%Z col) (-1))%Z ->
  nth r (uniq_size mo (-1)%Z col) (-1)%Z = nth r' (uniq_size mo (-1)%Z col) (-1)%Z -> r = r'.
Proof.
  unfold uniq_size. set (u := firstn mo (uniqZ col)). set (v := repeat _ _). intros Hr Hr' Hz E.
  assert (forall j, (length u <= j)%nat -> nth j (u ++ v) (-1)%Z = (-1)%Z) as G.
  { intros j Hj. rewrite app_nth2 by auto. unfold v. apply nth_repeat. }
  destruct (Nat.lt_ge_cases r (length u)) as [L|L]; [|rewrite (G r L) in Hz; lia].
  destruct (Nat.lt_ge_cases r' (length u)) as [L'|L']; [|rewrite (G r' L') in E; lia].
  rewrite !app_nth1 in E by auto.
  assert (NoDup u) as ND. { unfold u. pose proof (uniqZ_NoDup col) as D. rewrite <- (firstn_skipn mo (uniqZ col)) in D. clear - D. induction (firstn mo (uniqZ col)) as [|x u IH]; constructor; inversion D; subst; auto. intros Hin; apply H1, in_or_app; auto. }
  apply (proj1 (NoDup_nth _ (-1)%Z) ND); auto.
Qed.
Lemma column_nth idx c r d : (r < rows idx)%nat -> nth r (column idx c) d = at_ idx [r; c].
Proof.
  intros H. unfold column. rewrite nth_map_in with (dx := 0%nat) by (rewrite seq_length; auto). rewrite seq_nth by auto. reflexivity.
Qed.
Lemma column_length idx c : length (column idx c) = rows idx.
Proof. unfold column. rewrite map_length, seq_length. auto. Qed.
Lemma column_outdeps idx C c : (c < C)%nat ->
  column (compute_outdeps idx C) c = uniq_size (rows (compute_outdeps idx C)) (-1)%Z (column idx c) /\
  (length (uniqZ (column idx c)) <= rows (compute_outdeps idx C))%nat.
Proof.
  intros Hc. set (mo := Nat.max 1 (maxl (map (fun c => length (uniqZ (column idx c))) (seq 0 C)))).
  assert (rows (compute_outdeps idx C) = mo) as Hr by reflexivity. rewrite Hr.
  assert (length (uniqZ (column idx c)) <= mo)%nat as Hle.
  { etransitivity; [|apply Nat.le_max_r]. apply maxl_ge. apply in_map_iff. exists c. split; auto. apply in_seq. lia. }
  split; [|exact Hle]. apply nth_ext with (d := (-1)%Z) (d' := (-1)%Z).
  - rewrite column_length, Hr, uniq_size_length; auto.
  - intros r Hr'. rewrite column_length, Hr in Hr'. rewrite column_nth by (rewrite Hr; auto). reflexivity.
Qed.

Theorem sparse_sum_exact n a axes threshold y g l : (0 < n)%nat -> awf n a -> NoDup axes ->
  (forall d, In d axes -> (d < ndim (lx a))%nat) ->
  sparse_sum_jvp a axes threshold = Some (y, g, l) ->
  let out := permute (keep_pos (ndim (lx a)) axes) (sh (lx a)) in
  let red := allix (permute axes (sh (lx a))) in
  y = np_sum axes (lx a) /\ sh y = out /\ jwf n out g /\ sh l = out /\
  (forall i p, inb p out -> jent g i p = sumL red (fun j => jent (ljac a) i (weave (ndim (lx a)) axes p j))) /\
  (forall p, inb p out -> at_ l p = sumL red (fun j => at_ (llap a) (weave (ndim (lx a)) axes p j))) /\
  (weak g = true -> (Z.of_nat (rows (jdata g)) <= threshold)%Z /\ (1 <= rows (jdata g))%nat) /\ jdistinct g.
Proof.
  intros Hn [Hwf Hl] Hnd Hlt H out red. unfold sparse_sum_jvp in H.
  destruct (jidx (ljac a)) as [m|] eqn:Em; [|discriminate].
  destruct (jwf_sparse Hwf Em) as (Hd & Hm & Hran). set (k := rows (jdata (ljac a))) in *.
  set (s := sh (lx a)) in *. unfold ndim in Hlt. fold s in Hlt. unfold ndim in out. unfold ndim. fold s in out |- *.
  set (u := permute axes s) in *. set (t := out) in *.
  assert (sh (np_sum axes (lx a)) = t) as Hy by reflexivity.
  cbv zeta in H. rewrite Hy in H.
  set (ord := (0%nat :: map S axes) ++ filter (fun d => negb (existsb (Nat.eqb d) (0%nat :: map S axes))) (seq 0 (ndim (jdata (ljac a))))) in *.
  assert (ndim (jdata (ljac a)) = S (length s)) as Hnj by (unfold ndim; rewrite Hd; reflexivity).
  assert (filter (fun d => negb (existsb (Nat.eqb d) (0%nat :: map S axes))) (seq 0 (S (length s))) = map S (keep_pos (length s) axes)) as Hflt.
  { assert (forall d, existsb (Nat.eqb (S d)) (0%nat :: map S axes) = existsb (Nat.eqb d) axes) as E.
    { intros d. clear. cbn. induction axes; cbn; auto. rewrite IHaxes. reflexivity. }
    change (seq 0 (S (length s))) with (0%nat :: seq 1 (length s)). rewrite <- seq_shift. unfold keep_pos. cbn [filter].
    change (existsb (Nat.eqb 0) (0%nat :: map S axes)) with true. cbn [negb].
    generalize (seq 0 (length s)). intros ls. induction ls as [|d ls IH]; [reflexivity|]. cbn [map filter].
    rewrite E. destruct (existsb (Nat.eqb d) axes); cbn [negb map]; [exact IH|f_equal; exact IH]. }
  assert (ord = 0%nat :: map S (axes ++ keep_pos (length s) axes)) as Hord.
  { unfold ord. rewrite Hnj, Hflt. cbn [app]. rewrite map_app. reflexivity. }
  assert (is_perm ord (S (length s))) as Hperm.
  { rewrite Hord. unfold is_perm. cbn [seq]. constructor. rewrite <- seq_shift. apply Permutation_map. apply axes_keep_perm; auto. }
  assert (forall x (l : list nat), permute ord (x :: l) = x :: permute axes l ++ permute (keep_pos (length s) axes) l) as Hpo.
  { intros x l0. rewrite Hord, permute_cons. cbn [nth]. f_equal. unfold permute. rewrite map_map, map_app. reflexivity. }
  assert (sh (transpose ord m) = (k :: u) ++ t) as Htm by (rewrite transpose_sh, Hm, Hpo; reflexivity).
  assert (sh (transpose ord (jdata (ljac a))) = (k :: u) ++ t) as Htd by (rewrite transpose_sh, Hd, Hpo; reflexivity).
  assert (length (0%nat :: map S axes) = length (k :: u)) as Hlr by (cbn; rewrite map_length; unfold u; rewrite permute_length; auto).
  rewrite Htm, Hlr in H. rewrite firstn_app_exact in H by auto.
  set (R := prod (k :: u)) in *. set (C := prod t) in *.
  destruct (Nat.eqb C 0); [discriminate|].
  set (idx := reshape [R; C] (transpose ord m)) in *. set (jr := reshape [R; C] (transpose ord (jdata (ljac a)))) in *.
  assert (forall r j p, (r < k)%nat -> inb j u -> inb p t ->
    at_ idx [ravel_ix (k :: u) (r :: j); ravel_ix t p] = at_ m (r :: weave (length s) axes p j) /\
    at_ jr [ravel_ix (k :: u) (r :: j); ravel_ix t p] = at_ (jdata (ljac a)) (r :: weave (length s) axes p j)) as Hidx.
  { intros r j p Hr Hj Hp.
    assert (length p = length (keep_pos (length s) axes)) as Lp by (rewrite (inb_length Hp); apply permute_length).
    assert (length j = length axes) as Lj by (rewrite (inb_length Hj); apply permute_length).
    assert (permute ord (r :: weave (length s) axes p j) = (r :: j) ++ p) as Epo.
    { rewrite Hpo. rewrite weave_axes, weave_keep by auto. reflexivity. }
    assert (forall X (b : nd X), sh b = k :: s -> at_ (reshape [R; C] (transpose ord b)) [ravel_ix (k :: u) (r :: j); ravel_ix t p] = at_ b (r :: weave (length s) axes p j)) as G.
    { intros X b Hb. rewrite <- (@transpose_at _ ord b (r :: weave (length s) axes p j)).
      - apply reshape_ravel_eq.
        + rewrite Epo, transpose_sh, Hb, Hpo. apply (@inb_app (r :: j) p (k :: u) t); auto. apply inb_cons; auto.
        + rewrite Epo, transpose_sh, Hb, Hpo. change (k :: permute axes s ++ permute (keep_pos (length s) axes) s) with ((k :: u) ++ t).
          rewrite (@ravel_app (k :: u) t (r :: j) p) by (cbn; rewrite (inb_length Hj); auto). cbn [ravel_ix prod]. fold C. lia.
      - unfold ndim. rewrite Hb. auto.
      - unfold ndim. rewrite Hb. cbn. rewrite weave_length. auto. }
    split; apply G; auto. }
  assert (forall rho, (rho < R)%nat -> exists r j, (r < k)%nat /\ inb j u /\ rho = ravel_ix (k :: u) (r :: j)) as Hsplit.
  { intros rho Hrho. pose proof (unravel_inb (k :: u) Hrho) as Hin. pose proof (ravel_unravel (k :: u) Hrho) as E.
    destruct (unravel_ix (k :: u) rho) as [|r j]; [inversion Hin|]. apply inb_cons in Hin. exists r, j. intuition. }
  assert (forall (F : nat -> A) (G : nat -> ix -> A), (forall r j, (r < k)%nat -> inb j u -> F (ravel_ix (k :: u) (r :: j)) = G r j) ->
     sumn R F = sumL (allix u) (fun j => sumn k (fun r => G r j))) as HsumR.
  { intros F G HFG. unfold R. transitivity (sumn (prod (k :: u)) (fun rho => F (ravel_ix (k :: u) (unravel_ix (k :: u) rho)))).
    - apply sumn_ext. intros rho Hrho. rewrite ravel_unravel; auto.
    - rewrite (sum_unravel (k :: u) (fun q => F (ravel_ix (k :: u) q))). rewrite sum_allix_cons. unfold sumn. rewrite sumL_swap.
      apply sumL_ext. intros j Hj. apply sumL_ext. intros r Hr. apply in_seq in Hr. apply allix_spec in Hj. apply HFG; auto. lia. }
  set (io := compute_outdeps idx C) in *.
  set (dense := (threshold <? Z.of_nat (rows io))%Z) in *.
  set (out_dim := if dense then Z.to_nat (listmaxZ (flat idx) + 1) else rows io) in *.
  set (idx' := if dense then idx else Nd [R; C] (fun i => Z.of_nat (argmax_eq (at_ idx i) (column io (nth 1 i 0%nat))))) in *.
  set (jr2 := reshape (R :: t) jr) in *. set (ir2 := reshape (R :: t) idx') in *.
  assert (sh idx' = [R; C]) as Hsi by (unfold idx'; destruct dense; reflexivity).
  pose proof (@seg_core jr2 ir2 R t out_dim eq_refl eq_refl) as Hseg.
  destruct (compact ir2) as [ic rep] eqn:Ec.
  set (g4 := reshape (out_dim :: t) _) in H.
  change (sh g4 = out_dim :: t /\ (forall q p, (q < out_dim)%nat -> inb p t -> at_ g4 (q :: p) =
    sumn R (fun r => if Z.eqb (at_ ir2 (r :: p)) (Z.of_nat q) then at_ jr2 (r :: p) else 0))) in Hseg. clearbody g4.
  injection H as <- <- <-. cbn [jdata jidx].
  destruct Hseg as [Hg4 Hat].
  assert (forall rho p, (rho < R)%nat -> inb p t -> at_ ir2 (rho :: p) = at_ idx' [rho; ravel_ix t p]) as Hir.
  { intros rho p Hrho Hp. unfold ir2. rewrite (@reshape2_back _ idx' R t rho p); auto. }
  assert (forall rho p, (rho < R)%nat -> inb p t -> at_ jr2 (rho :: p) = at_ jr [rho; ravel_ix t p]) as Hjr.
  { intros rho p Hrho Hp. unfold jr2. rewrite (@reshape2_back _ jr R t rho p); auto. }
  assert (forall p j, inb p t -> inb j u -> inb (weave (length s) axes p j) s) as Hwv by (intros; apply weave_inb; auto).
  (* the represented sum, as a sum over all stored entries *)
  assert (forall i p, inb p t -> sumL (allix u) (fun j => jent (ljac a) i (weave (length s) axes p j)) =
     sumn R (fun rho => if Z.eqb (at_ idx [rho; ravel_ix t p]) (Z.of_nat i) then at_ jr [rho; ravel_ix t p] else 0)) as Hspec.
  { intros i p Hp. symmetry.
    rewrite (sumL_ext (allix u) (fun j => jent (ljac a) i (weave (length s) axes p j)) (fun j => sumn k (fun r => if Z.eqb (at_ m (r :: weave (length s) axes p j)) (Z.of_nat i) then at_ (jdata (ljac a)) (r :: weave (length s) axes p j) else 0)))
      by (intros; apply jent_sparse; auto).
    apply (HsumR _ (fun r j => if Z.eqb (at_ m (r :: weave (length s) axes p j)) (Z.of_nat i) then at_ (jdata (ljac a)) (r :: weave (length s) axes p j) else 0)).
    intros r j Hr Hj. destruct (Hidx r j p Hr Hj Hp) as [-> ->]. reflexivity. }
  assert (forall rho p, (rho < R)%nat -> inb p t -> (-1 <= at_ idx [rho; ravel_ix t p] < Z.of_nat n)%Z /\
      ((at_ idx [rho; ravel_ix t p] < 0)%Z -> at_ jr [rho; ravel_ix t p] = 0)) as Hran2.
  { intros rho p Hrho Hp. destruct (Hsplit rho Hrho) as (r & j & Hr & Hj & ->). destruct (Hidx r j p Hr Hj Hp) as [-> ->].
    apply Hran; auto. }
  assert (forall p, inb p t -> (ravel_ix t p < C)%nat) as HC by (intros; apply ravel_lt; auto).
  split; [reflexivity|]. split; [reflexivity|].
  assert (at_ (np_sum axes (llap a)) = fun p => sumL red (fun j => at_ (llap a) (weave (length s) axes p j))) as HLap.
  { unfold np_sum. cbn [at_]. unfold ndim. rewrite Hl. reflexivity. }
  assert (sh (np_sum axes (llap a)) = t) as HLs by (unfold np_sum; cbn [sh]; unfold ndim; rewrite Hl; reflexivity).
  destruct dense eqn:Edn.
  - (* dense output *)
    assert (forall rho p, (rho < R)%nat -> inb p t -> (at_ idx [rho; ravel_ix t p] <= listmaxZ (flat idx))%Z) as Hmax.
    { intros rho p Hrho Hp. assert (In (at_ idx [rho; ravel_ix t p]) (flat idx)) as Hin.
      { apply flat_In. exists [rho; ravel_ix t p]. split; auto. repeat constructor; auto. }
      unfold listmaxZ. destruct (flat idx) as [|z ls]; [inversion Hin|]. destruct (fold_max_ge ls z) as [M1 M2].
      destruct Hin as [<-|Hin]; auto. }
    assert (out_dim <= n)%nat as Hod.
    { unfold out_dim. destruct (flat idx) as [|z ls] eqn:Ef; cbn [listmaxZ]; [lia|].
      pose proof (fold_max_in ls z) as Hin. rewrite <- Ef in Hin. apply flat_In in Hin. destruct Hin as (i & Hi & E).
      unfold listmaxZ. rewrite <- E. inversion Hi as [|rho ? i1 ? Hrho Hi1]; subst. inversion Hi1 as [|c ? i2 ? Hc Hi2]; subst.
      inversion Hi2; subst. destruct (Hran2 rho (unravel_ix t c) Hrho) as [Q _]; [apply unravel_inb; auto|].
      rewrite ravel_unravel in Q by auto. lia. }
    split; [|split; [exact HLs|split; [|split]]].
    + exists out_dim. cbn [jdata jidx]. split; auto.
    + intros i p Hp. rewrite (jent_dense _ _ _ Hg4). unfold red. rewrite Hspec by auto.
      destruct (Nat.ltb_spec i out_dim).
      * rewrite Hat by auto. apply sumn_ext. intros rho Hrho. rewrite Hir, Hjr by auto. reflexivity.
      * symmetry. apply sumn_zero. intros rho Hrho. destruct (Z.eqb_spec (at_ idx [rho; ravel_ix t p]) (Z.of_nat i)) as [E|]; auto.
        exfalso. specialize (Hmax rho p Hrho Hp). unfold out_dim in *. lia.
    + intros p Hp. rewrite HLap. reflexivity.
    + split; [cbn; discriminate|exact I].
  - (* sparse output *)
    set (mm := reshape (out_dim :: t) io) in *.
    assert (rows idx = R) as HRi by reflexivity.
    assert (forall q p, (q < out_dim)%nat -> inb p t -> at_ mm (q :: p) = at_ io [q; ravel_ix t p]) as Hmm.
    { intros q p Hq Hp. unfold mm. rewrite (@reshape2_back _ io out_dim t q p); auto. }
    set (inv := fun p rho => argmax_eq (at_ idx [rho; ravel_ix t p]) (column io (ravel_ix t p))).
    assert (forall rho p, (rho < R)%nat -> inb p t -> (inv p rho < out_dim)%nat /\ at_ io [inv p rho; ravel_ix t p] = at_ idx [rho; ravel_ix t p]) as Hinv.
    { intros rho p Hrho Hp. destruct (column_outdeps idx (HC p Hp)) as [Hco Hle]. fold io in Hco, Hle.
      assert (In (at_ idx [rho; ravel_ix t p]) (column io (ravel_ix t p))) as Hin.
      { rewrite Hco. apply uniq_size_In; auto. rewrite <- (column_nth idx (ravel_ix t p) (-1)%Z) by auto. apply nth_In. rewrite column_length. auto. }
      unfold inv, argmax_eq. rewrite (proj2 (zmem_In _ _) Hin). pose proof (zpos_lt _ _ Hin) as Hz. rewrite column_length in Hz.
      split; [exact Hz|]. rewrite <- (column_nth io (ravel_ix t p) (-1)%Z) by auto. apply nth_zpos. auto. }
    assert (forall q p, (q < out_dim)%nat -> inb p t -> at_ g4 (q :: p) = sumn R (fun rho => if Z.eqb (Z.of_nat (inv p rho)) (Z.of_nat q) then at_ jr [rho; ravel_ix t p] else 0)) as Hg.
    { intros q p Hq Hp. rewrite Hat by auto. apply sumn_ext. intros rho Hrho. rewrite Hir, Hjr by auto. reflexivity. }
    split; [|split; [exact HLs|split; [|split]]].
    + exists out_dim. cbn [jdata jidx]. split; [exact Hg4|]. split; [reflexivity|]. intros q p Hq Hp. rewrite Hmm by auto.
      assert (at_ io [q; ravel_ix t p] = (-1)%Z \/ exists rho, (rho < R)%nat /\ at_ io [q; ravel_ix t p] = at_ idx [rho; ravel_ix t p]) as Hq'.
      { destruct (column_outdeps idx (HC p Hp)) as [Hco Hle]. fold io in Hco, Hle.
        assert (In (at_ io [q; ravel_ix t p]) (column io (ravel_ix t p))) as Hin.
        { rewrite <- (column_nth io (ravel_ix t p) (-1)%Z) by auto. apply nth_In. rewrite column_length. auto. }
        rewrite Hco in Hin. apply uniq_size_inv in Hin. destruct Hin as [Hin|Hin]; [right|auto].
        apply (In_nth _ _ (-1)%Z) in Hin. destruct Hin as (rho & Hrho & E). rewrite column_length in Hrho. rewrite column_nth in E by auto.
        exists rho. split; auto. }
      split.
      * destruct Hq' as [->|(rho & Hrho & ->)]; [lia|]. apply Hran2; auto.
      * intros Hneg. rewrite Hg by auto. apply sumn_zero. intros rho Hrho. destruct (Hinv rho p Hrho Hp) as [Hi1 Hi2].
        destruct (Z.eqb_spec (Z.of_nat (inv p rho)) (Z.of_nat q)) as [E|]; auto. apply Hran2; auto. rewrite <- Hi2.
        assert (inv p rho = q) as -> by lia. exact Hneg.
    + intros i p Hp. rewrite (@jent_sparse _ _ _ mm) by reflexivity. cbn [jdata]. rewrite (rows_cons _ Hg4). unfold red. rewrite Hspec by auto.
      rewrite (@sumn_ext _ _ out_dim _ (fun q => if Z.eqb (at_ io [q; ravel_ix t p]) (Z.of_nat i) then sumn R (fun rho => if Z.eqb (Z.of_nat (inv p rho)) (Z.of_nat q) then at_ jr [rho; ravel_ix t p] else 0) else 0)).
      * rewrite (@sum_groups _ _ R out_dim (inv p) (fun q => Z.eqb (at_ io [q; ravel_ix t p]) (Z.of_nat i)) (fun rho => at_ jr [rho; ravel_ix t p])).
        -- apply sumn_ext. intros rho Hrho. destruct (Hinv rho p Hrho Hp) as [_ ->]. reflexivity.
        -- intros rho Hrho. apply Hinv; auto.
      * intros q Hq. rewrite Hmm, Hg by auto. reflexivity.
    + intros p Hp. rewrite HLap. reflexivity.
    + split.
      * intros _. rewrite (rows_cons _ Hg4). unfold out_dim. unfold dense in Edn. split; [lia|]. apply Nat.le_max_l.
      * unfold jdistinct. cbn [jidx]. intros k' s' E' r r' p Hr Hr' Hp. injection E' as <- <-. rewrite !Hmm by auto.
        destruct (column_outdeps idx (HC p Hp)) as [Hco Hle]. fold io in Hco, Hle.
        rewrite <- !(column_nth io (ravel_ix t p) (-1)%Z) by auto. rewrite Hco. apply uniq_size_distinct.
        -- rewrite <- Hco, column_length. auto.
        -- rewrite <- Hco, column_length. auto.
Qed.

Lemma sum_chain f x axes p (v : ix -> A) : is_sum f x axes -> NoDup axes -> (forall d, In d axes -> (d < ndim x)%nat) ->
  inb p (permute (keep_pos (ndim x) axes) (sh x)) ->
  sumL (allix (sh x)) (fun q => o_d f [x] p 0%nat q * v q) =
  sumL (allix (permute axes (sh x))) (fun j => v (weave (ndim x) axes p j)).
Proof.
  intros (_ & _ & Hd) Hnd Hlt Hp. unfold ndim in *. set (s := sh x) in *. set (keep := keep_pos (length s) axes) in *.
  rewrite (@sum_weave axes s) by auto. fold keep.
  rewrite (@sumL_single _ _ _ _ p); [|apply allix_NoDup|apply allix_spec; auto|].
  - apply sumL_ext. intros j Hj. apply allix_spec in Hj.
    rewrite Hd by (auto; apply weave_inb; auto). unfold keep at 1. rewrite weave_keep.
    + unfold ixeqb. destruct (list_eq_dec Nat.eq_dec p p); [ring|congruence].
    + rewrite (inb_length Hp). apply permute_length.
  - intros p' Hp' Hne. apply allix_spec in Hp'. apply sumL_zero. intros j Hj. apply allix_spec in Hj.
    rewrite Hd by (auto; apply weave_inb; auto). unfold keep at 1. rewrite weave_keep.
    + unfold ixeqb. destruct (list_eq_dec Nat.eq_dec p' p); [congruence|ring].
    + rewrite (inb_length Hp'). apply permute_length.
Qed.

Theorem sparse_sum_sound n f a axes threshold r : (0 < n)%nat -> awf n a -> NoDup axes ->
  (forall d, In d axes -> (d < ndim (lx a))%nat) -> is_sum f (lx a) axes ->
  sparse_sum_jvp a axes threshold = Some r ->
  step_ok n f [a] r /\ jdistinct (snd (fst r)) /\
  (weak (snd (fst r)) = true -> (Z.of_nat (rows (jdata (snd (fst r)))) <= threshold)%Z /\ (1 <= rows (jdata (snd (fst r))))%nat).
Proof.
  intros Hn Hwf Hnd Hlt Hf H. destruct r as [[y g] l].
  destruct (@sparse_sum_exact n a axes threshold y g l Hn Hwf Hnd Hlt H) as (H1 & H2 & H3 & H4 & H5 & H6 & H7 & H8).
  split; [|auto]. pose proof Hf as (F1 & F2 & F3). unfold step_ok. cbn [xs_of map]. rewrite F1.
  split; [congruence|]. split; [auto|]. split; [auto|]. split.
  - intros i p Hp. rewrite H5 by auto. unfold dspec, chain1. unfold sumn. cbn [xs_of map length seq sumL nth].
    rewrite (sum_chain (fun q => jent (ljac a) i q) Hf Hnd Hlt Hp). ring.
  - intros p Hp. rewrite H6 by auto. unfold lspec, chain1. unfold sumn. cbn [xs_of map length seq sumL nth].
    rewrite (sum_chain (fun q => at_ (llap a) q) Hf Hnd Hlt Hp). ring.
Qed.
End S.
