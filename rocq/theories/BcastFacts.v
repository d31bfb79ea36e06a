(* BcastFacts.v : facts about broadcasting, concatenation and unique rows used by the sparse propagation proofs *)
From Verif Require Export DenseFacts.
From Coq Require Import ZifyBool.
Set Implicit Arguments.

Definition F1 : shape -> shape -> Prop := Forall2 (fun a b => a = b \/ a = 1).
Lemma F1_trans s t u : F1 s t -> F1 t u -> F1 s u.
Proof.
  unfold F1. intros H. revert u. induction H as [|a b s t Hab H IH]; intros u Hu; inversion Hu; subst; constructor.
  - lia.
  - apply IH; auto.
Qed.
Lemma F1_app_inv_r s t1 t2 : F1 s (t1 ++ t2) -> exists s1 s2, s = s1 ++ s2 /\ F1 s1 t1 /\ F1 s2 t2.
Proof. intros H. apply Forall2_app_inv_r in H. destruct H as (s1 & s2 & H1 & H2 & H3). eauto. Qed.
Lemma F1_app_inv_l s1 s2 t : F1 (s1 ++ s2) t -> exists t1 t2, t = t1 ++ t2 /\ F1 s1 t1 /\ F1 s2 t2.
Proof. intros H. apply Forall2_app_inv_l in H. destruct H as (t1 & t2 & H1 & H2 & H3). eauto. Qed.
Lemma bto_trans s t u : bto s t -> bto t u -> bto s u.
Proof.
  intros (t0 & t1 & -> & H1) (u0 & u1 & -> & H2). apply F1_app_inv_l in H2.
  destruct H2 as (v1 & v2 & -> & Ha & Hb). exists (u0 ++ v1), v2. rewrite app_assoc. split; auto.
  eapply F1_trans; eauto.
Qed.
Lemma nth_skip {X} (l : list X) a n d : nth n (skipn a l) d = nth (a + n) l d.
Proof. revert l. induction a as [|a IH]; intros [|x l]; cbn; auto. destruct n; auto. Qed.
Lemma map2_nth_bproj t p n : n < length t -> length p = length t ->
  nth n (map2 (fun n x => if Nat.eqb n 1 then 0 else x) t p) 0 = if Nat.eqb (nth n t 0) 1 then 0 else nth n p 0.
Proof.
  revert t n. induction p as [|x p IH]; intros [|a t] [|n]; cbn [length]; intros Hn Hl; try lia.
  - reflexivity.
  - cbn [map2 nth]. apply IH; lia.
Qed.
Lemma bproj_nth t p n : length t <= length p -> n < length t ->
  nth n (bproj t p) 0 = if Nat.eqb (nth n t 0) 1 then 0 else nth (length p - length t + n) p 0.
Proof.
  intros Hl Hn. unfold bproj. rewrite map2_nth_bproj by (rewrite ?skipn_length; lia).
  destruct (Nat.eqb (nth n t 0) 1); auto. rewrite nth_skip. reflexivity.
Qed.
Lemma bproj_comp s t p : bto s t -> length t <= length p -> bproj s (bproj t p) = bproj s p.
Proof.
  intros Hst Hp. pose proof (bto_length Hst) as Hs.
  apply nth_ext with (d := 0) (d' := 0).
  - rewrite !bproj_length; auto; try lia. rewrite bproj_length by lia. lia.
  - intros n Hn. rewrite bproj_length in Hn by (rewrite bproj_length; lia).
    rewrite !bproj_nth by (rewrite ?bproj_length; lia). rewrite (bproj_length t p) by lia.
    destruct (Nat.eqb_spec (nth n s 0) 1) as [|Hne]; auto.
    destruct Hst as (t0 & t1 & -> & H). pose proof (F2_length H) as Hl. rewrite app_length in *.
    assert (nth (length t0 + length t1 - length s + n) (t0 ++ t1) 0 = nth n s 0) as E.
    { rewrite app_nth2 by lia. replace (length t0 + length t1 - length s + n - length t0) with n by lia.
      assert (forall k, k < length s -> nth k s 0 = nth k t1 0 \/ nth k s 0 = 1) as HH.
      { clear -H. induction H as [|a b s t Hab H IH]; cbn; intros [|k] Hk; try lia; auto. apply IH. lia. }
      specialize (HH n Hn). lia. }
    rewrite E. destruct (Nat.eqb_spec (nth n s 0) 1); [lia|].
    f_equal. lia.
Qed.

(* broadcast shapes are least upper bounds *)
Lemma bsr_ub s t r : bsr s t = Some r ->
  (exists r0 r1, r = r0 ++ r1 /\ F1 s r0) /\ (exists r0 r1, r = r0 ++ r1 /\ F1 t r0).
Proof.
  revert t r. induction s as [|a s IH]; intros t r H.
  - cbn in H. inversion H; subst. split; [exists [], r|exists r, []]; rewrite ?app_nil_r; split; auto; try constructor.
    clear. induction r; constructor; auto.
  - destruct t as [|b t].
    + cbn in H. inversion H; subst. split; [exists (a :: s), []|exists [], (a :: s)]; rewrite ?app_nil_r; split; auto; try constructor; auto.
      clear. induction s; constructor; auto.
    + cbn [bsr] in H. destruct (bsr s t) as [r'|] eqn:E; [|discriminate].
      destruct (IH _ _ E) as [(x0 & x1 & -> & Hx) (y0 & y1 & Hy' & Hy)].
      assert (forall c, (a = c \/ a = 1) -> (b = c \/ b = 1) -> r = c :: x0 ++ x1 ->
        (exists r0 r1 : list nat, r = r0 ++ r1 /\ F1 (a :: s) r0) /\ (exists r0 r1 : list nat, r = r0 ++ r1 /\ F1 (b :: t) r0)) as HH.
      { intros c Ha Hb ->. split.
        - exists (c :: x0), x1. split; auto. constructor; auto.
        - exists (c :: y0), y1. rewrite Hy'. split; auto. constructor; auto. }
      destruct (Nat.eqb_spec a b); [inversion H; subst; eapply HH; eauto|].
      destruct (Nat.eqb_spec a 1); [inversion H; subst; eapply HH; eauto|].
      destruct (Nat.eqb_spec b 1); [inversion H; subst; eapply HH; eauto|discriminate].
Qed.
Lemma bsr_lub s t r u : bsr s t = Some r ->
  (exists u0 u1, u = u0 ++ u1 /\ F1 s u0) -> (exists u0 u1, u = u0 ++ u1 /\ F1 t u0) ->
  exists u0 u1, u = u0 ++ u1 /\ F1 r u0.
Proof.
  revert t r u. induction s as [|a s IH]; intros t r u H (u0 & u1 & -> & Hu) (v0 & v1 & Hv' & Hv).
  - cbn in H. inversion H; subst. eauto.
  - destruct t as [|b t].
    + cbn in H. inversion H; subst. eauto.
    + cbn [bsr] in H. destruct (bsr s t) as [r'|] eqn:E; [|discriminate].
      inversion Hu as [|? c ? u0' Hac Hu' E1 E2]; subst. inversion Hv as [|? c' ? v0' Hbc Hv'' E1 E2]; subst.
      cbn in Hv'. injection Hv' as <- Hv'.
      destruct (IH t r' (u0' ++ u1) E) as (w0 & w1 & Hw & HF); [eauto|eauto|].
      cbn [app]. rewrite Hw.
      assert (forall d, r = d :: r' -> (d = c \/ d = 1) ->
        exists u2 u3, c :: w0 ++ w1 = u2 ++ u3 /\ F1 r u2) as HH.
      { intros d -> Hd. exists (c :: w0), w1. split; auto. constructor; auto. }
      destruct (Nat.eqb_spec a b); [inversion H; subst; eapply HH; eauto|].
      destruct (Nat.eqb_spec a 1); [inversion H; subst; eapply HH; eauto|].
      destruct (Nat.eqb_spec b 1); [inversion H; subst; eapply HH; eauto|discriminate].
Qed.
Lemma bto_rev s t : bto s t <-> exists r0 r1, rev t = r0 ++ r1 /\ F1 (rev s) r0.
Proof.
  split.
  - intros (t0 & t1 & -> & H). exists (rev t1), (rev t0). rewrite rev_app_distr. split; auto. apply F2_rev; auto.
  - intros (r0 & r1 & E & H). exists (rev r1), (rev r0).
    assert (t = rev (rev t)) as Et by (rewrite rev_involutive; auto). split.
    + rewrite Et, E, rev_app_distr. auto.
    + rewrite <- (rev_involutive s). apply F2_rev; auto.
Qed.
Lemma bshape2_ub s t r : bshape2 s t = Some r -> bto s r /\ bto t r.
Proof.
  unfold bshape2. destruct (bsr (rev s) (rev t)) as [w|] eqn:E; [|discriminate]. cbn. intros H. inversion H; subst.
  destruct (bsr_ub _ _ E) as [H1 H2]. split; apply bto_rev; rewrite rev_involutive; auto.
Qed.
Lemma bshape2_lub s t r u : bshape2 s t = Some r -> bto s u -> bto t u -> bto r u.
Proof.
  unfold bshape2. destruct (bsr (rev s) (rev t)) as [w|] eqn:E; [|discriminate]. cbn. intros H. inversion H; subst.
  intros H1 H2. apply bto_rev in H1, H2. apply bto_rev. rewrite rev_involutive. eapply bsr_lub; eauto.
Qed.
Lemma bshapes_gen l : forall acc r, fold_left (fun acc s => match acc with None => None | Some t => bshape2 t s end) l acc = Some r ->
  exists t, acc = Some t /\ bto t r /\ (forall s, In s l -> bto s r) /\
  forall u, bto t u -> (forall s, In s l -> bto s u) -> bto r u.
Proof.
  induction l as [|s l IH]; cbn; intros acc r H.
  - subst. exists r. split; auto. split; [apply bto_refl|]. split; [tauto|auto].
  - destruct (IH _ _ H) as (t & Ht & Hr & Hl & Hu). destruct acc as [t0|]; [|discriminate].
    destruct (bshape2_ub _ _ Ht) as [H1 H2]. exists t0. split; auto. split; [eapply bto_trans; eauto|]. split.
    + intros x [<-|Hx]; auto. eapply bto_trans; eauto.
    + intros u Hu0 Hul. apply Hu; auto. eapply bshape2_lub; eauto.
Qed.
Lemma bshapes_spec l r : bshapes l = Some r -> (forall s, In s l -> bto s r) /\
  forall u, (forall s, In s l -> bto s u) -> bto r u.
Proof.
  intros H. destruct (bshapes_gen _ _ H) as (t & Ht & _ & H1 & H2). inversion Ht; subst. split; auto.
  intros u Hu. apply H2; auto. apply bto_nil.
Qed.

(* ---- concatenation of a list of arrays along axis 0 ---- *)
Definition off (ks : list nat) (a : nat) : nat := list_sum (firstn a ks).
Lemma cat_at_off {B} (d : B) l a r p e : a < length l -> r < rows (nth a l e) ->
  cat_at d l (off (map rows l) a + r) p = at_ (nth a l e) (r :: p).
Proof.
  revert a. induction l as [|x l IH]; cbn [length]; intros a Ha Hr; [lia|].
  destruct a as [|a]; cbn [nth] in *.
  - unfold off. cbn [firstn list_sum fold_right plus map cat_at]. destruct (Nat.ltb_spec r (rows x)); [auto|lia].
  - cbn [map cat_at]. unfold off. cbn [firstn list_sum fold_right]. fold (list_sum (firstn a (map rows l))). fold (off (map rows l) a).
    destruct (Nat.ltb_spec (rows x + off (map rows l) a + r) (rows x)); [lia|].
    replace (rows x + off (map rows l) a + r - rows x) with (off (map rows l) a + r) by lia. apply IH; auto. lia.
Qed.
Lemma off_lt ks a r : a < length ks -> r < nth a ks 0 -> off ks a + r < list_sum ks.
Proof.
  revert a. induction ks as [|k ks IH]; cbn [length]; intros a Ha Hr; [lia|].
  destruct a as [|a]; unfold off; cbn [firstn list_sum fold_right nth] in *; fold (list_sum ks).
  - lia.
  - fold (list_sum (firstn a ks)). fold (off ks a). specialize (IH a). lia.
Qed.
Lemma off_split ks r : r < list_sum ks -> exists a r', a < length ks /\ r' < nth a ks 0 /\ r = off ks a + r'.
Proof.
  revert r. induction ks as [|k ks IH]; cbn [list_sum fold_right]; intros r Hr; [lia|].
  fold (list_sum ks) in Hr. destruct (Nat.ltb_spec r k).
  - exists 0, r. unfold off. cbn. repeat split; lia.
  - destruct (IH (r - k)) as (a & r' & Ha & Hr' & E); [lia|]. exists (S a), r'. cbn [length nth].
    unfold off. cbn [firstn list_sum fold_right]. fold (list_sum (firstn a ks)). fold (off ks a). repeat split; try lia.
Qed.

Section C.
Context {A : Type} {RA : CRing A}.
Add Ring Aring4 : (@rth A RA).
Open Scope cr_scope.
Lemma sumn_off ks (G : nat -> A) :
  sumn (list_sum ks) G = sumn (length ks) (fun a => sumn (nth a ks 0%nat) (fun r => G (off ks a + r)%nat)).
Proof.
  revert G. induction ks as [|k ks IH]; intros G; [reflexivity|].
  cbn [list_sum fold_right length]. fold (list_sum ks). rewrite sumn_split, sumn_S. f_equal.
  rewrite IH. apply sumn_ext. intros a Ha. apply sumn_ext. intros r Hr.
  unfold off. cbn [firstn list_sum fold_right]. fold (list_sum (firstn a ks)). f_equal. lia.
Qed.
(* adding up groups of rows: sum over groups j of [u j] * sum of rows in the group *)
Lemma sum_groups K U (inv : nat -> nat) (c : nat -> bool) (G : nat -> A) :
  (forall r, (r < K)%nat -> (inv r < U)%nat) ->
  sumn U (fun j => if c j then sumn K (fun r => if Z.eqb (Z.of_nat (inv r)) (Z.of_nat j) then G r else 0) else 0)
  = sumn K (fun r => if c (inv r) then G r else 0).
Proof.
  intros H. transitivity (sumn U (fun j => sumn K (fun r => if c j then if Z.eqb (Z.of_nat (inv r)) (Z.of_nat j) then G r else 0 else 0))).
  - apply sumn_ext. intros j Hj. destruct (c j); auto. symmetry. apply sumn_zero. auto.
  - rewrite sumn_swap. apply sumn_ext. intros r Hr.
    rewrite (@sumn_single _ _ U (inv r)).
    + destruct (c (inv r)); auto. rewrite Z.eqb_refl. auto.
    + auto.
    + intros j Hj Hn. destruct (c j); auto. destruct (Z.eqb_spec (Z.of_nat (inv r)) (Z.of_nat j)); auto. lia.
Qed.
End C.

(* ---- unique rows ---- *)
Lemma lexcmp_eq l m : lexcmp l m = Eq <-> l = m.
Proof.
  revert m. induction l as [|x l IH]; intros [|y m]; cbn; split; intros H; try discriminate; auto.
  - destruct (Z.compare_spec x y); try discriminate. subst. apply IH in H. congruence.
  - inversion H; subst. rewrite Z.compare_refl. apply IH. auto.
Qed.
Lemma insL_In x y l : In y (insL x l) <-> y = x \/ In y l.
Proof.
  induction l as [|z l IH]; cbn; [intuition|]. destruct (lexcmp x z) eqn:E; cbn.
  - apply lexcmp_eq in E. subst. intuition.
  - intuition.
  - rewrite IH. intuition.
Qed.
Lemma uniqL_In x l : In x (uniqL l) <-> In x l.
Proof. induction l as [|y l IH]; cbn; [tauto|]. rewrite insL_In. unfold uniqL in IH. rewrite IH. intuition. Qed.
Lemma posL_spec x l : In x l -> posL x l < length l /\ nth (posL x l) l [] = x.
Proof.
  induction l as [|y l IH]; cbn; [tauto|]. intros H. destruct (lexcmp x y) eqn:E.
  - apply lexcmp_eq in E. subst. split; [lia|auto].
  - destruct H as [->|H]; [rewrite (proj2 (lexcmp_eq x x) eq_refl) in E; discriminate|].
    destruct (IH H). split; [lia|auto].
  - destruct H as [->|H]; [rewrite (proj2 (lexcmp_eq x x) eq_refl) in E; discriminate|].
    destruct (IH H). split; [lia|auto].
Qed.
Lemma flat_nth {B} (a : nd B) s p d : sh a = s -> inb p s -> nth (ravel_ix s p) (flat a) d = at_ a p.
Proof.
  intros Hs Hp. unfold flat. rewrite Hs. rewrite (nth_map_in (at_ a) _ [] d).
  - rewrite nth_ravel_allix by auto. auto.
  - rewrite allix_length. apply ravel_lt; auto.
Qed.
Lemma unique_rows_spec (m : nd Z) K s u inv : sh m = K :: s -> unique_rows m = (u, inv) ->
  exists U, sh u = U :: s /\
  (forall r, r < K -> inv r < U) /\
  (forall r p, r < K -> inb p s -> at_ u (inv r :: p) = at_ m (r :: p)) /\
  (forall j, j < U -> exists r, r < K /\ forall p, inb p s -> at_ u (j :: p) = at_ m (r :: p)).
Proof.
  intros Hs E. unfold unique_rows in E. rewrite (rows_cons _ Hs) in E. rewrite Hs in E. cbn [tl] in E.
  set (rl := map (fun r => flat (row m r)) (seq 0 K)) in *.
  injection E as <- <-. exists (length (uniqL rl)). cbn [sh at_ hd tl].
  assert (forall r, r < K -> In (flat (row m r)) (uniqL rl)) as Hin.
  { intros r Hr. apply uniqL_In. apply in_map_iff. exists r. split; auto. apply in_seq. lia. }
  assert (forall r, sh (row m r) = s) as Hrow by (intros; cbn; rewrite Hs; auto).
  split; [reflexivity|]. split; [|split].
  - intros r Hr. apply posL_spec. auto.
  - intros r p Hr Hp. destruct (posL_spec _ _ (Hin r Hr)) as [_ ->]. rewrite flat_nth with (s := s) by auto. reflexivity.
  - intros j Hj. assert (In (nth j (uniqL rl) []) rl) as H by (apply uniqL_In, nth_In; auto).
    apply in_map_iff in H. destruct H as (r & Hr & Hi). apply in_seq in Hi. exists r. split; [lia|].
    intros p Hp. rewrite <- Hr. rewrite flat_nth with (s := s) by auto. reflexivity.
Qed.
