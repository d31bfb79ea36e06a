(* CompactFacts.v : reading a compacted index tensor back by broadcasting (C40); rows of dense_array (C05, C08) *)
From Verif Require Export BcastFacts.
From Coq Require Import ZifyBool.
Set Implicit Arguments.

Lemma compact_broadcast (a b : nd Z) c : compact a = (b, c) ->
  length (sh b) = length (sh a) /\
  (forall d, In d c -> 1 <= d < ndim a /\ nth d (sh b) 0 = 1) /\
  (forall d, ~ In d c -> nth d (sh b) 0 = nth d (sh a) 0) /\
  (forall i, inb i (sh a) -> at_ (broadcast_to (sh a) b) i = at_ a i).
Proof.
  intros E. unfold compact in E. destruct (compact_loop_spec _ _ E) as (Hi & _ & Hs & Hb & Ha).
  assert (length (sh b) = length (sh a)) as Hl by (rewrite Hs, map_length, seq_length; auto).
  assert (forall d, d < length (sh a) -> nth d (sh b) 0 = if existsb (Nat.eqb d) c then 1 else nth d (sh a) 0) as Hn.
  { intros d Hd. rewrite Hs. rewrite nth_map_in with (dx := 0) by (rewrite seq_length; auto). rewrite seq_nth by auto. reflexivity. }
  split; [auto|]. split; [|split].
  - intros d Hd. assert (1 <= d < ndim a) as Hd' by (apply Hi in Hd; apply in_seq in Hd; lia). split; auto.
    rewrite Hn by (unfold ndim in Hd'; lia). apply existsb_eqb_In in Hd. rewrite Hd. reflexivity.
  - intros d Hd. destruct (Nat.lt_ge_cases d (length (sh a))) as [H|H].
    + rewrite Hn by auto. apply existsb_eqb_nIn in Hd. rewrite Hd. reflexivity.
    + rewrite !nth_overflow by lia. reflexivity.
  - intros i Hin. cbn [broadcast_to at_]. rewrite Hb, (Ha i Hin). f_equal.
    pose proof (inb_length Hin) as Hli.
    assert (length (bproj (sh b) i) = length i) as Hlb by (rewrite bproj_length; lia).
    apply nth_ext with (d := 0) (d' := 0); rewrite !zeros_length; auto.
    intros d Hd. rewrite !zeros_nth by lia. destruct (existsb (Nat.eqb d) c) eqn:Ec; auto.
    rewrite bproj_nth by lia. rewrite Hn by lia. rewrite Ec.
    pose proof (inb_nth Hin (d := d) ltac:(lia)) as Hlt.
    destruct (Nat.eqb_spec (nth d (sh a) 0) 1); [lia|]. f_equal. lia.
Qed.

Section C.
Context {A : Type} {RA : CRing A}.
(* every stored index has a row *)
Lemma dense_array_covers (J : jac A) m n s D : jwf0 n s J -> jidx J = Some m -> dense_array J = Some D ->
  forall r p, (r < rows (jdata J))%nat -> inb p s -> (at_ m (r :: p) < Z.of_nat (rows D))%Z.
Proof.
  intros (k & Hk & Hw) E ED r p Hr Hp. rewrite E in Hw. destruct Hw as [Hm Hran].
  rewrite (rows_cons _ Hk) in Hr. unfold dense_array in ED. rewrite E in ED.
  destruct (max_n J) as [mx|] eqn:Emx; [|discriminate]. cbn [bind] in ED.
  assert (at_ m (r :: p) <= mx)%Z as Hle.
  { unfold max_n in Emx. rewrite E in Emx. destruct (flat m) as [|z l] eqn:Ef; [discriminate|]. injection Emx as <-.
    assert (In (at_ m (r :: p)) (z :: l)) as Hin.
    { rewrite <- Ef. apply flat_In. exists (r :: p). rewrite Hm. split; auto. apply inb_cons; auto. }
    destruct (fold_max_ge l z) as [H1 H2]. destruct Hin as [<-|Hin]; auto. }
  destruct (Z_le_gt_dec 0 mx) as [H0|H0].
  2:{ assert (at_ m (r :: p) < 0)%Z by lia. lia. }
  set (K := Z.to_nat (mx + 1)) in *.
  assert (data_shape J = s) as Hds by (unfold data_shape; rewrite Hk; reflexivity). rewrite Hds in ED.
  destruct (@construct_sparse_gen _ _ J m (arange_ext K s) n k s K (map (fun _ => 1%nat) s)) as (D' & ED' & HD & _); auto.
  { exists k. rewrite E. auto. }
  { apply bto_ones. }
  { unfold K. lia. }
  rewrite ED in ED'. injection ED' as <-. rewrite (rows_cons _ HD). unfold K. lia.
Qed.
Open Scope cr_scope.
Lemma construct_exact (J : jac A) n s o K t :
  jwf n s J -> weak J = true -> sh o = K :: t -> bto t s -> (0 < K)%nat ->
  exists res, construct_jac_for J (Some o) = Some res /\ sh res = K :: s /\
    (forall q p i, (q < K)%nat -> inb p s -> at_ o (q :: bproj t p) = Z.of_nat i ->
       (forall q', (q' < K)%nat -> q' <> q -> at_ o (q' :: bproj t p) <> Z.of_nat i) ->
       at_ res (q :: p) = jent J i p) /\
    (forall q p, (q < K)%nat -> inb p s -> (at_ o (q :: bproj t p) < 0)%Z -> at_ res (q :: p) = 0).
Proof.
  intros Hwf Hw Ho Ht HK. unfold weak in Hw. destruct (jidx J) as [m|] eqn:E; [|discriminate].
  pose proof Hwf as (k & Hk & _).
  destruct (construct_sparse_spec o Hwf E Hk Ho Ht HK) as (res & Er & Hs & Hat).
  exists res. split; [exact Er|]. split; [exact Hs|]. split.
  - intros q p i Hq Hp Hz Hd. rewrite Hat by auto. cbn zeta. rewrite Hz.
    rewrite (@zpos_unique _ (olist o t K p) q (-1)%Z).
    + rewrite Nat.eqb_refl. destruct (Z.leb_spec 0 (Z.of_nat i)); [|lia]. cbn [andb]. rewrite Nat2Z.id. auto.
    + rewrite <- Hz. rewrite <- (olist_nth o t p (s := q) (K := K) (-1)%Z) by auto. apply nth_In. rewrite olist_length. auto.
    + rewrite olist_length. auto.
    + rewrite olist_nth by auto. auto.
    + intros q' Hq' E'. rewrite olist_length in Hq'. rewrite olist_nth in E' by auto.
      destruct (Nat.eq_dec q' q); auto. exfalso. apply (Hd q'); auto.
  - intros q p Hq Hp Hz. rewrite Hat by auto. cbn zeta. destruct (Z.leb_spec 0 (at_ o (q :: bproj t p))); [lia|]. reflexivity.
Qed.
Lemma construct_dense_exact (J : jac A) n s o K :
  jwf n s J -> weak J = false -> sh o = [K] -> (0 < K)%nat ->
  exists res, construct_jac_for J (Some o) = Some res /\ sh res = K :: s /\
    (forall q p i, (q < K)%nat -> inb p s -> at_ o [q] = Z.of_nat i -> (i < rows (jdata J))%nat -> at_ res (q :: p) = jent J i p).
Proof.
  intros (k & Hk & _) Hw Ho HK. unfold weak in Hw. destruct (jidx J) as [m|] eqn:E; [discriminate|].
  unfold construct_jac_for, construct_jac_for_idx. rewrite (rows_cons _ Ho), E. destruct (Nat.eqb_spec K 0); [lia|].
  eexists. split; [reflexivity|]. split; [cbn; rewrite Ho, Hk; reflexivity|].
  intros q p i Hq Hp Hz Hi. unfold fancy0, ndim. cbn [at_]. rewrite Ho. cbn [length firstn skipn]. rewrite Hz.
  unfold jent. rewrite E. rewrite (rows_cons _ Hk) in *. destruct (Nat.ltb_spec i k); [|lia].
  unfold wrap_ix. destruct (Z.ltb_spec (Z.of_nat i) 0); [lia|]. do 2 f_equal. lia.
Qed.
Lemma dense_array_empty (J : jac A) m : jidx J = Some m -> flat m = [] -> dense_array J = None.
Proof. intros E Ef. unfold dense_array, max_n. rewrite E, Ef. reflexivity. Qed.
End C.
