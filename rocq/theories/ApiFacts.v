(* ApiFacts.v : proofs about Api.v *)
From Verif Require Export NdFacts Spec.
From Coq Require Import ZifyBool.
Set Implicit Arguments.

Lemma rows_cons {A} (a : nd A) k s : sh a = k :: s -> rows a = k.
Proof. unfold rows. intros ->. reflexivity. Qed.

(* ---------- compaction ---------- *)
Definition zeros (c : list nat) (i : ix) : ix :=
  map (fun d => if existsb (Nat.eqb d) c then 0 else nth d i 0) (seq 0 (length i)).
Lemma existsb_eqb_In d c : existsb (Nat.eqb d) c = true <-> In d c.
Proof.
  rewrite existsb_exists. split.
  - intros (x & Hx & E). apply Nat.eqb_eq in E. congruence.
  - intros H. exists d. split; auto. apply Nat.eqb_refl.
Qed.
Lemma existsb_eqb_nIn d c : existsb (Nat.eqb d) c = false <-> ~ In d c.
Proof. rewrite <- existsb_eqb_In. destruct (existsb _ c); intuition congruence. Qed.
Lemma zeros_length c i : length (zeros c i) = length i.
Proof. unfold zeros. rewrite map_length, seq_length. auto. Qed.
Lemma zeros_nth c i d : d < length i -> nth d (zeros c i) 0 = if existsb (Nat.eqb d) c then 0 else nth d i 0.
Proof.
  intros H. unfold zeros. rewrite nth_map_in with (dx := 0) by (rewrite seq_length; auto).
  rewrite seq_nth by auto. reflexivity.
Qed.
Lemma zeros_nil i : zeros [] i = i.
Proof. unfold zeros. cbn. apply map_nth_seq. Qed.
Lemma zeros_cons d c i : zeros (d :: c) i = zeros c (upd d 0 i).
Proof.
  apply nth_ext with (d := 0) (d' := 0); rewrite !zeros_length; [rewrite upd_length; auto|].
  intros n Hn. rewrite !zeros_nth by (rewrite ?upd_length; auto). cbn.
  rewrite nth_upd. destruct (Nat.eqb_spec n d); cbn.
  - destruct (Nat.ltb_spec n (length i)); [|lia]. destruct (existsb _ c); auto.
  - destruct (existsb _ c); auto.
Qed.
Lemma const_along_spec d a i : const_along d a = true -> inb i (sh a) -> at_ a (upd d 0 i) = at_ a i.
Proof.
  unfold const_along. rewrite forallb_forall. intros H Hi. apply Z.eqb_eq. apply H.
  apply allix_spec. auto.
Qed.
Lemma inb_upd0 d i s : inb i s -> inb (upd d 0 i) (upd d 1 s).
Proof. intros. apply upd_inb; auto. Qed.
Lemma upd_ge d v l : length l <= d -> upd d v l = l.
Proof. revert d. induction l as [|x l IH]; intros [|d]; cbn; intros; auto; try lia. f_equal. apply IH. lia. Qed.
Lemma upd_upd d v w l : upd d v (upd d w l) = upd d v l.
Proof. revert d. induction l as [|x l IH]; intros [|d]; cbn; auto. f_equal. auto. Qed.

Lemma compact_loop_spec ds a b c : compact_loop ds a = (b, c) ->
  incl c ds /\ (NoDup ds -> NoDup c) /\
  sh b = map (fun d => if existsb (Nat.eqb d) c then 1 else nth d (sh a) 0) (seq 0 (length (sh a))) /\
  (forall i, at_ b i = at_ a (zeros c i)) /\
  (forall i, inb i (sh a) -> at_ a i = at_ a (zeros c i)).
Proof.
  revert a b c. induction ds as [|d ds IH]; intros a b c H; cbn in H.
  - inversion H; subst. split; [|split; [|split; [|split]]].
    + apply incl_refl.
    + auto.
    + cbn [existsb]. rewrite map_nth_seq. auto.
    + intros. rewrite zeros_nil. auto.
    + intros. rewrite zeros_nil. auto.
  - destruct (const_along d a) eqn:E.
    + destruct (compact_loop ds (take0 d a)) as [b' c'] eqn:E'. inversion H; subst. clear H.
      apply IH in E'. destruct E' as (H1 & H2 & H3 & H4 & H5).
      split; [|split; [|split; [|split]]].
      * intros x [->|Hx]; [left; auto|right; auto].
      * intros Hnd. inversion Hnd as [|? ? Hn Hnd']; subst. constructor; auto.
      * rewrite H3. cbn [take0 sh]. rewrite upd_length. apply map_ext_in. intros x Hx.
        apply in_seq in Hx. cbn. rewrite nth_upd. destruct (Nat.eqb_spec x d); cbn; auto.
        destruct (Nat.ltb_spec x (length (sh a))); [|lia]. destruct (existsb _ c'); auto.
      * intros i. rewrite H4. cbn [take0 at_]. rewrite zeros_cons. f_equal.
        apply nth_ext with (d := 0) (d' := 0); rewrite ?upd_length, ?zeros_length, ?upd_length; auto.
        intros n Hn. rewrite nth_upd, zeros_length, !zeros_nth by (rewrite ?upd_length; auto).
        rewrite nth_upd. destruct (Nat.eqb_spec n d); cbn; auto.
        destruct (Nat.ltb_spec n (length i)); [|lia]. destruct (existsb _ c'); auto.
      * intros i Hi. rewrite zeros_cons.
        transitivity (at_ a (upd d 0 i)); [symmetry; apply const_along_spec; auto|].
        specialize (H5 (upd d 0 i)). cbn [take0 sh at_] in H5. rewrite upd_upd in H5.
        rewrite H5 by (apply inb_upd0; auto).
        f_equal. apply nth_ext with (d := 0) (d' := 0); rewrite ?upd_length, ?zeros_length, ?upd_length; auto.
        intros n Hn. rewrite nth_upd, zeros_length, upd_length, zeros_nth by (rewrite ?upd_length; auto).
        rewrite nth_upd.
        destruct (Nat.eqb_spec n d); cbn; auto.
        destruct (Nat.ltb_spec n (length i)); [|lia]. destruct (existsb _ c'); auto.
    + apply IH in H. destruct H as (H1 & H2 & H3 & H4 & H5). split; [|split; [|split; [|split]]]; auto.
      * intros x Hx. right. auto.
      * intros Hnd. inversion Hnd; auto.
Qed.

(* ---------- broadcasting ---------- *)
Lemma F2_length {X Y} (P : X -> Y -> Prop) l m : Forall2 P l m -> length l = length m.
Proof. induction 1; cbn; auto. Qed.
Lemma bto_length t s : bto t s -> length t <= length s.
Proof. intros (s0 & s1 & -> & H). apply F2_length in H. rewrite app_length. lia. Qed.
Lemma bproj_inb t s p : bto t s -> inb p s -> inb (bproj t p) t.
Proof.
  intros (s0 & s1 & -> & H) Hp. unfold bproj.
  assert (length p = length s0 + length t) as Hl.
  { apply inb_length in Hp. rewrite app_length in Hp. apply F2_length in H. lia. }
  rewrite Hl. replace (length s0 + length t - length t) with (length s0) by lia.
  rewrite <- (firstn_skipn (length s0) p) in Hp.
  apply inb_app_inv in Hp; [|rewrite firstn_length; lia]. destruct Hp as [_ Hp].
  clear Hl. revert Hp. generalize (skipn (length s0) p). intros q Hq.
  revert q Hq. induction H as [|a b t s1 Hab H IH]; intros q Hq; inversion Hq; subst; cbn; constructor.
  - destruct (Nat.eqb_spec a 1); lia.
  - apply IH; auto.
Qed.
Lemma bto_refl s : bto s s.
Proof. exists [], s. split; auto. induction s; constructor; auto. Qed.
Lemma bto_nil s : bto [] s.
Proof. exists s, []. rewrite app_nil_r. auto. Qed.
Lemma bsr_refl s : bsr s s = Some s.
Proof. induction s as [|n s IH]; cbn; auto. rewrite IH, Nat.eqb_refl. auto. Qed.
Lemma bshape2_refl s : bshape2 s s = Some s.
Proof. unfold bshape2. rewrite bsr_refl. cbn. rewrite rev_involutive. auto. Qed.
Lemma bsr_nil_r s : bsr s [] = Some s.
Proof. destruct s; auto. Qed.
Lemma bsr_F2_l t s s0 : Forall2 (fun a b => a = b \/ a = 1) t s -> bsr t (s ++ s0) = Some (s ++ s0).
Proof.
  induction 1 as [|a b t s Hab H IH]; cbn; auto. rewrite IH.
  destruct (Nat.eqb_spec a b) as [->|]; auto. destruct Hab as [Hab| ->]; [lia|]. auto.
Qed.
Lemma bsr_F2_r t s s0 : Forall2 (fun a b => a = b \/ a = 1) t s -> bsr (s ++ s0) t = Some (s ++ s0).
Proof.
  induction 1 as [|a b t s Hab H IH]; cbn; [apply bsr_nil_r|]. rewrite IH.
  destruct (Nat.eqb_spec b a) as [->|]; auto. destruct Hab as [Hab| ->]; [lia|].
  destruct (Nat.eqb_spec b 1); auto. subst; auto.
Qed.
Lemma F2_rev {X Y} (P : X -> Y -> Prop) l m : Forall2 P l m -> Forall2 P (rev l) (rev m).
Proof. induction 1; cbn; auto. apply Forall2_app; auto. Qed.
Lemma bshape2_bto_l t s : bto t s -> bshape2 t s = Some s.
Proof.
  intros (s0 & s1 & -> & H). unfold bshape2. rewrite rev_app_distr.
  rewrite bsr_F2_l by (apply F2_rev; auto). cbn. rewrite <- rev_app_distr, rev_involutive. auto.
Qed.
Lemma bshape2_bto_r t s : bto t s -> bshape2 s t = Some s.
Proof.
  intros (s0 & s1 & -> & H). unfold bshape2. rewrite rev_app_distr.
  rewrite bsr_F2_r by (apply F2_rev; auto). cbn. rewrite <- rev_app_distr, rev_involutive. auto.
Qed.
Lemma map2_app {X Y Z} (f : X -> Y -> Z) l l' m m' : length l = length m ->
  map2 f (l ++ l') (m ++ m') = map2 f l m ++ map2 f l' m'.
Proof. revert m. induction l as [|x l IH]; intros [|y m]; cbn; intros; try lia; auto. f_equal. apply IH. lia. Qed.
Lemma bproj_snoc t k p r : length t <= length p -> r < k ->
  bproj (t ++ [k]) (p ++ [r]) = bproj t p ++ [r].
Proof.
  intros Hl Hr. unfold bproj. rewrite !app_length. cbn.
  replace (length p + 1 - (length t + 1)) with (length p - length t) by lia.
  rewrite skipn_app. replace (length p - length t - length p) with 0 by lia. cbn.
  rewrite map2_app by (rewrite skipn_length; lia). f_equal. cbn. f_equal.
  destruct (Nat.eqb_spec k 1); lia.
Qed.
Lemma last_snoc {X} (l : list X) x d : last (l ++ [x]) d = x.
Proof. apply last_last. Qed.
Lemma bexc1_sh {A} post (a : nd A) : sh (bexc1 post a) = rows a :: post.
Proof. cbn. rewrite last_last, removelast_last. auto. Qed.
Lemma bexc1_at {A} post (a : nd A) k t r p : sh a = k :: t -> r < k -> length t <= length p ->
  at_ (bexc1 post a) (r :: p) = at_ a (r :: bproj t p).
Proof.
  intros Hs Hr Hp. unfold bexc1, move_last_0, broadcast_to, move_0_last. cbn [at_ sh tl hd]. rewrite Hs. cbn [tl hd].
  rewrite bproj_snoc by auto. rewrite last_last, removelast_last. auto.
Qed.
Lemma bproj_length t p : length t <= length p -> length (bproj t p) = length t.
Proof. intros H. unfold bproj. rewrite map2_length, skipn_length. lia. Qed.
Lemma bproj_ones (s : shape) p : length p = length s -> bproj (map (fun _ : nat => 1) s) p = map (fun _ : nat => 0) s.
Proof.
  intros H. unfold bproj. rewrite map_length, H, Nat.sub_diag. cbn. revert p H.
  induction s as [|n s IH]; intros [|x p]; cbn; intros; try lia; auto. f_equal. apply IH. lia.
Qed.
Lemma bto_ones (s : shape) : bto (map (fun _ : nat => 1) s) s.
Proof. exists [], s. split; auto. induction s; cbn; constructor; auto. Qed.

Lemma nth_map2_proj t p n : n < length t -> length p = length t -> nth n p 0 < nth n t 0 ->
  nth n (map2 (fun n x => if Nat.eqb n 1 then 0 else x) t p) 0 = nth n p 0.
Proof.
  revert n p. induction t as [|a t IH]; intros [|n] [|y p]; cbn [length map2 nth]; intros; try lia.
  - destruct (Nat.eqb_spec a 1); lia.
  - apply IH; lia.
Qed.

(* ---------- materialize ---------- *)
Lemma skipn_app_exact {X} (l m : list X) n : length l = n -> skipn n (l ++ m) = m.
Proof. intros <-. induction l; cbn; auto. Qed.
Lemma firstn_app_exact {X} (l m : list X) n : length l = n -> firstn n (l ++ m) = l.
Proof. intros <-. induction l; cbn; auto. f_equal; auto. Qed.
Lemma permute_ext p i j : (forall d, In d p -> nth d i 0 = nth d j 0) -> permute p i = permute p j.
Proof. intros H. apply map_ext_in. auto. Qed.

Section Mat.
Context {A : Type} {RA : CRing A}.
Add Ring Aring1 : (@rth A RA).
Open Scope cr_scope.
Implicit Types J : jac A.

Lemma order_perm (n : nat) (copied : list nat) : NoDup copied -> (forall d, In d copied -> (1 <= d < n)%nat) ->
  (0 < n)%nat ->
  is_perm (filter (fun d => negb (Nat.eqb d 0) && negb (existsb (Nat.eqb d) copied)) (seq 0 n) ++ [0%nat] ++ copied) n.
Proof.
  intros Hnd Hc Hn. unfold is_perm. apply NoDup_Permutation.
  - apply NoDup_app_intro.
    + apply NoDup_filter, seq_NoDup.
    + cbn. constructor; auto. intros H. apply Hc in H. lia.
    + intros x Hx Hx2. apply filter_In in Hx. destruct Hx as [_ Hx]. apply andb_true_iff in Hx.
      destruct Hx as [H1 H2]. cbn in Hx2. destruct Hx2 as [<-|Hx2]; [discriminate|].
      apply existsb_eqb_In in Hx2. rewrite Hx2 in H2. discriminate.
  - apply seq_NoDup.
  - intros x. rewrite in_app_iff, filter_In, in_seq. cbn [In app].
    destruct (Nat.eqb_spec x 0); cbn [negb andb].
    + subst. intuition.
    + destruct (existsb (Nat.eqb x) copied) eqn:E; cbn.
      * apply existsb_eqb_In in E. pose proof (Hc _ E). intuition.
      * apply existsb_eqb_nIn in E. intuition; try match goal with H : In _ copied |- _ => apply Hc in H; lia end.
Qed.

Lemma transpose_sh {B} p (a : nd B) : sh (transpose p a) = permute p (sh a).
Proof. reflexivity. Qed.

(* the core of materialize_for_idx after the (optional) compaction *)
Lemma mat_core (x : nd A) (idx2 idx3 : nd Z) (copied : list nat) k s num :
  sh x = k :: s -> sh idx2 = k :: s ->
  NoDup copied -> (forall d, In d copied -> (1 <= d < S (length s))%nat) ->
  sh idx3 = map (fun d => if existsb (Nat.eqb d) copied then 1%nat else nth d (k :: s) 0%nat) (seq 0 (S (length s))) ->
  (forall i, inb i (k :: s) -> at_ idx2 i = at_ idx3 (zeros copied i)) ->
  let indexed := filter (fun d => negb (Nat.eqb d 0) && negb (existsb (Nat.eqb d) copied)) (seq 0 (ndim idx3)) in
  let order := indexed ++ [0%nat] ++ copied in
  let x4 := transpose order x in let idx4 := transpose order idx3 in let ni := length indexed in
  let idx5 := Nd (firstn (ni + 1) (sh idx4)) (fun i => at_ idx4 (i ++ repeat 0%nat (length copied))) in
  let x_shape := firstn ni (sh x4) ++ [num] ++ skipn (ni + 1) (sh x4) in
  let B := prod (firstn ni (sh x4)) in let k' := nth ni (sh x4) 0%nat in let c := skipn (ni + 1) (sh x4) in
  let x6 := reshape (B :: skipn ni (sh x4)) x4 in
  let idx6 := reshape (prod (firstn ni (sh idx5)) :: skipn ni (sh idx5)) idx5 in
  let agg := stack B (num :: c) (fun b => segment_sum k' c (row x6 b) (fun r => at_ idx6 [b; r]) num) in
  let res := transpose (argsort order) (reshape x_shape agg) in
  sh res = num :: s /\
  forall m p, (m < num)%nat -> inb p s ->
    at_ res (m :: p) = sumn k (fun r => if Z.eqb (at_ idx2 (r :: p)) (Z.of_nat m) then at_ x (r :: p) else 0).
Proof.
  intros Hx Hi Hnd Hc H3 Hz.
  assert (ndim idx3 = S (length s)) as Hn3 by (unfold ndim; rewrite H3, map_length, seq_length; auto).
  assert (existsb (Nat.eqb 0) copied = false) as Hc0.
  { apply existsb_eqb_nIn. intros H. apply Hc in H. lia. }
  rewrite Hn3. intros indexed order.
  assert (is_perm order (S (length s))) as Hp by (apply order_perm; auto; lia).
  assert (Hp' : is_perm order (length (k :: s))) by auto.
  assert (forall d, In d indexed -> (1 <= d < S (length s))%nat /\ ~ In d copied) as Hind.
  { intros d Hd. apply filter_In in Hd. destruct Hd as [Hd E]. apply in_seq in Hd.
    apply andb_true_iff in E. destruct E as [E1 E2]. split.
    - destruct (Nat.eqb_spec d 0); [discriminate|]. lia.
    - apply existsb_eqb_nIn. destruct (existsb (Nat.eqb d) copied); auto; discriminate. }
  intros x4 idx4 ni idx5 x_shape B k' c x6 idx6 agg res.
  assert (sh x4 = permute indexed (k :: s) ++ k :: permute copied (k :: s)) as Hx4.
  { unfold x4. rewrite transpose_sh, Hx. unfold order. rewrite !permute_app. reflexivity. }
  assert (length (permute indexed (k :: s)) = ni) as Hni by apply permute_length.
  assert (firstn ni (sh x4) = permute indexed (k :: s)) as Hf by (rewrite Hx4; apply firstn_app_exact; auto).
  assert (skipn ni (sh x4) = k :: permute copied (k :: s)) as Hsk by (rewrite Hx4; apply skipn_app_exact; auto).
  assert (c = permute copied (k :: s)) as Hcc.
  { unfold c. rewrite Hx4. replace (ni + 1)%nat with (length (permute indexed (k :: s) ++ [k])).
    - replace (permute indexed (k :: s) ++ k :: permute copied (k :: s)) with ((permute indexed (k :: s) ++ [k]) ++ permute copied (k :: s)).
      + apply skipn_app_exact; auto.
      + rewrite <- app_assoc. reflexivity.
    - rewrite app_length, Hni. cbn. lia. }
  assert (k' = k) as Hk.
  { unfold k'. rewrite Hx4. rewrite app_nth2 by lia. rewrite Hni, Nat.sub_diag. reflexivity. }
  assert (x_shape = permute indexed (k :: s) ++ num :: permute copied (k :: s)) as Hxs.
  { unfold x_shape. fold c. rewrite Hf, Hcc. reflexivity. }
  assert (x_shape = permute order (num :: s)) as Hxs2.
  { rewrite Hxs. unfold order. rewrite !permute_app. cbn [app permute map nth].
    f_equal; [|f_equal]; apply permute_ext; intros d Hd.
    - apply Hind in Hd. destruct d; [lia|]. reflexivity.
    - apply Hc in Hd. destruct d; [lia|]. reflexivity. }
  assert (length order = S (length s)) as Hlo by (apply is_perm_length; auto).
  split.
  - unfold res. rewrite transpose_sh. cbn [reshape sh]. rewrite Hxs2.
    apply permute_argsort with (n := S (length s)); auto.
  - intros m p Hm Hpin.
    pose proof (inb_length Hpin) as Hlp.
    unfold res. rewrite transpose_argsort_at; cycle 1.
    { unfold ndim. cbn [reshape sh]. rewrite Hxs2, permute_length, Hlo. auto. }
    { unfold ndim. cbn [reshape sh]. rewrite Hxs2, permute_length, Hlo. cbn. lia. }
    set (i1 := permute indexed (m :: p)).
    assert (forall r, permute order (r :: p) = i1 ++ r :: permute copied (m :: p)) as Hperm.
    { intros r. unfold order. rewrite !permute_app. cbn [app permute map nth].
      f_equal; [|f_equal]; apply permute_ext; intros d Hd.
      - apply Hind in Hd. destruct d; [lia|]. reflexivity.
      - apply Hc in Hd. destruct d; [lia|]. reflexivity. }
    assert (inb i1 (permute indexed (k :: s))) as Hi1.
    { unfold i1. rewrite (permute_ext indexed (k :: s) (num :: s)).
      - apply permute_inb; [|apply inb_cons; auto]. intros d Hd. apply Hind in Hd. cbn. lia.
      - intros d Hd. apply Hind in Hd. destruct d; [lia|]. reflexivity. }
    assert (inb (permute copied (m :: p)) (permute copied (k :: s))) as Hci.
    { rewrite (permute_ext copied (k :: s) (num :: s)).
      - apply permute_inb; [|apply inb_cons; auto]. intros d Hd. apply Hc in Hd. cbn. lia.
      - intros d Hd. apply Hc in Hd. destruct d; [lia|]. reflexivity. }
    rewrite Hperm, Hxs.
    assert (B = prod (permute indexed (k :: s))) as HB by (unfold B; rewrite Hf; auto).
    rewrite reshape_split_lead.
    2:{ cbn [stack agg sh]. rewrite HB, Hcc. reflexivity. }
    2:{ exact Hi1. }
    2:{ apply inb_cons. auto. }
    unfold agg. cbn [stack at_ hd tl segment_sum]. rewrite Hk.
    apply sumn_ext. intros r Hr.
    assert (at_ idx6 [ravel_ix (permute indexed (k :: s)) i1; r] = at_ idx2 (r :: p)) as E1.
    { assert (sh idx4 = permute indexed (k :: s) ++ [k] ++ permute copied (sh idx3)) as H4.
      { unfold idx4. rewrite transpose_sh. unfold order. rewrite !permute_app. f_equal; [|f_equal].
        - apply map_ext_in. intros d Hd. apply Hind in Hd. destruct Hd as [Hd1 Hd2].
          rewrite H3. rewrite nth_map_in with (dx := 0%nat) by (rewrite seq_length; lia).
          rewrite seq_nth by lia. cbn [plus]. apply existsb_eqb_nIn in Hd2. rewrite Hd2. reflexivity.
        - unfold permute. cbn [map]. rewrite H3. cbn [seq map nth]. rewrite Hc0. reflexivity. }
      assert (sh idx5 = permute indexed (k :: s) ++ [k]) as H5.
      { unfold idx5. cbn [sh]. rewrite H4. rewrite app_assoc. apply firstn_app_exact.
        rewrite app_length, Hni. reflexivity. }
      unfold idx6. rewrite H5. rewrite firstn_app_exact by auto. rewrite skipn_app_exact by auto.
      rewrite reshape_merge_lead; [|auto|apply ravel_lt; auto|repeat constructor; auto].
      rewrite unravel_ravel by auto. unfold idx5. cbn [at_].
      rewrite (Hz (r :: p)) by (apply inb_cons; auto).
      transitivity (at_ idx4 (permute order (zeros copied (r :: p)))).
      - f_equal. unfold order. rewrite !permute_app. rewrite <- app_assoc. f_equal; [|f_equal].
        + unfold i1. apply permute_ext. intros d Hd. apply Hind in Hd. destruct Hd as [Hd1 Hd2].
          rewrite zeros_nth by (cbn; lia). apply existsb_eqb_nIn in Hd2. rewrite Hd2.
          destruct d; [lia|]. reflexivity.
        + cbn [permute map]. rewrite zeros_nth by (cbn; lia). rewrite Hc0. reflexivity.
        + symmetry. clear - Hc Hlp. assert (Hsub : forall d, In d copied -> (d < length (r :: p))%nat).
          { intros d Hd. apply Hc in Hd. cbn. lia. }
          clear Hc. unfold permute.
          rewrite (map_ext_in _ (fun _ => 0%nat)).
          { induction copied; cbn; auto. f_equal. apply IHcopied. intros; apply Hsub; cbn; auto. }
          intros d Hd. rewrite zeros_nth by auto. apply existsb_eqb_In in Hd. rewrite Hd. reflexivity.
      - unfold idx4. apply transpose_at.
        + rewrite Hn3. auto.
        + rewrite Hn3, zeros_length. cbn. lia. }
    rewrite E1.
    assert (at_ x6 (ravel_ix (permute indexed (k :: s)) i1 :: r :: permute copied (m :: p)) = at_ x (r :: p)) as E2.
    { unfold x6. rewrite Hsk, HB. rewrite reshape_merge_lead.
      - rewrite unravel_ravel by auto. rewrite <- Hperm. unfold x4. apply transpose_at.
        + unfold ndim. rewrite Hx. auto.
        + unfold ndim. rewrite Hx. cbn. lia.
      - exact Hx4.
      - apply ravel_lt; auto.
      - apply inb_cons. auto. }
    unfold row. cbn [at_]. rewrite E2. reflexivity.
Qed.

Theorem materialize_spec J st idx num k s :
  sh (jdata J) = k :: s -> sh idx = k :: s ->
  exists res, materialize_for_idx J st idx num = Some res /\ sh res = num :: s /\
  forall m p, (m < num)%nat -> inb p s ->
    at_ res (m :: p) = sumn k (fun r => if Z.eqb (at_ idx (r :: p)) (Z.of_nat m) then at_ (jdata J) (r :: p) else 0).
Proof.
  intros HJ Hi. unfold materialize_for_idx.
  (* the broadcast data is the data *)
  assert (forall t, bto t s -> forall i0 : nd Z, sh i0 = k :: t ->
    exists x idx2, bexc (jdata J) i0 = Some (x, idx2) /\ sh x = k :: s /\ sh idx2 = k :: s /\
      (forall r p, (r < k)%nat -> inb p s -> at_ x (r :: p) = at_ (jdata J) (r :: p)) /\
      (forall r p, (r < k)%nat -> inb p s -> at_ idx2 (r :: p) = at_ i0 (r :: bproj t p))) as HB.
  { intros t Ht i0 Hi0. unfold bexc. rewrite HJ, Hi0. cbn [tl]. rewrite bshape2_bto_r by auto. cbn [bind].
    eexists. eexists. split; [reflexivity|]. rewrite !bexc1_sh, (rows_cons _ HJ), (rows_cons _ Hi0).
    repeat split; auto.
    - intros r p Hr Hp. rewrite bexc1_at with (k := k) (t := s) by (auto; rewrite (inb_length Hp); auto).
      rewrite bproj_same; auto.
    - intros r p Hr Hp. apply bexc1_at with (k := k) (t := t); auto. rewrite (inb_length Hp). apply bto_length; auto. }
  destruct st.
  - (* static *)
    destruct (compact idx) as [idx1 c1] eqn:E1. cbn [fst].
    apply compact_loop_spec in E1. unfold ndim in E1. rewrite Hi in E1. cbn [length] in E1.
    replace (S (length s) - 1)%nat with (length s) in E1 by lia.
    destruct E1 as (Hc1 & Hn1 & Hs1 & Ha1 & Hb1).
    set (t := map (fun d => if existsb (Nat.eqb d) c1 then 1%nat else nth d (k :: s) 0%nat) (seq 1 (length s))).
    assert (sh idx1 = k :: t) as Hsi1.
    { rewrite Hs1. cbn [length seq map nth]. destruct (existsb (Nat.eqb 0) c1) eqn:E; auto.
      apply existsb_eqb_In in E. apply Hc1 in E. apply in_seq in E. lia. }
    assert (bto t s) as Ht.
    { exists [], s. split; auto. unfold t. rewrite <- seq_shift, map_map. cbn [nth].
      rewrite <- (map_nth_seq s 0%nat) at 2. generalize (seq 0 (length s)). intros l.
      induction l as [|d l IH]; cbn [map]; constructor; auto. destruct (existsb _ c1); auto. }
    destruct (HB t Ht idx1 Hsi1) as (x & idx2 & HE & Hx & H2 & Hxa & H2a). rewrite HE. cbn [bind].
    assert (forall r p, (r < k)%nat -> inb p s -> at_ idx2 (r :: p) = at_ idx (r :: p)) as H2b.
    { intros r p Hr Hp. rewrite H2a by auto. rewrite Ha1. pose proof (inb_length Hp) as Hl.
      rewrite (Hb1 (r :: p)) by (apply inb_cons; auto).
      f_equal. pose proof (bto_length Ht) as Hlt. pose proof (bproj_inb Ht Hp) as Hbi.
      assert (length t = length s) as Hlts by (unfold t; rewrite map_length, seq_length; auto).
      apply nth_ext with (d := 0%nat) (d' := 0%nat); rewrite !zeros_length; cbn [length]; rewrite ?bproj_length; try lia.
      intros n Hn. rewrite !zeros_nth by (cbn [length]; rewrite ?bproj_length; lia).
      destruct (existsb (Nat.eqb n) c1) eqn:E; auto.
      destruct n; auto. cbn [nth]. 
      unfold bproj. rewrite Hl, Hlts, Nat.sub_diag. cbn [skipn].
      assert (nth n t 0%nat = nth n s 0%nat) as Hnt.
      { unfold t. rewrite nth_map_in with (dx := 0%nat) by (rewrite seq_length; lia).
        rewrite seq_nth by lia. cbn [plus]. rewrite E. reflexivity. }
      assert (n < length t)%nat as Hnlt by lia.
      assert (nth n p 0%nat < nth n s 0%nat)%nat as Hps by (apply inb_nth; auto; lia).
      apply nth_map2_proj; lia. }
    destruct (compact idx2) as [idx3 copied] eqn:E3.
    apply compact_loop_spec in E3. unfold ndim in E3. rewrite H2 in E3. cbn [length] in E3.
    replace (S (length s) - 1)%nat with (length s) in E3 by lia.
    destruct E3 as (Hc3 & Hn3 & Hs3 & Ha3 & Hb3).
    edestruct (@mat_core x idx2 idx3 copied k s num) as [Q1 Q2]; eauto.
    + apply Hn3, seq_NoDup.
    + intros d Hd. apply Hc3, in_seq in Hd. lia.
    + intros i Hin. rewrite Ha3. rewrite (Hb3 i Hin). f_equal.
      apply nth_ext with (d := 0%nat) (d' := 0%nat); rewrite !zeros_length; auto.
      intros n Hn. rewrite !zeros_nth by (rewrite ?zeros_length; auto).
      destruct (existsb _ copied); auto.
    + eexists. split; [reflexivity|]. split; [exact Q1|]. intros m p Hm Hp. rewrite Q2 by auto.
      apply sumn_ext. intros r Hr. rewrite H2b, Hxa by auto. reflexivity.
  - (* traced index array *)
    destruct (HB s (bto_refl s) idx Hi) as (x & idx2 & HE & Hx & H2 & Hxa & H2a). rewrite HE. cbn [bind].
    edestruct (@mat_core x idx2 idx2 [] k s num) as [Q1 Q2]; eauto.
    + constructor.
    + intros d [].
    + rewrite H2. cbn [existsb]. change (S (length s)) with (length (k :: s)). rewrite map_nth_seq. auto.
    + intros i _. rewrite zeros_nil. auto.
    + eexists. split; [reflexivity|]. split; [exact Q1|]. intros m p Hm Hp. rewrite Q2 by auto.
      apply sumn_ext. intros r Hr. rewrite H2a, Hxa, bproj_same by auto. reflexivity.
Qed.
End Mat.
