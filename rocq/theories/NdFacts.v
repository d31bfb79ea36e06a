(* NdFacts.v : lemmas about Nd.v (generic array algebra, models no code). *)
From Verif Require Export Nd.
From Coq Require Import ZifyBool Sorting.Sorted.
Set Implicit Arguments.

Lemma NoDup_app_intro {X} (l m : list X) :
  NoDup l -> NoDup m -> (forall x, In x l -> In x m -> False) -> NoDup (l ++ m).
Proof.
  induction l as [|x l IH]; cbn; intros Hl Hm H; auto.
  inversion Hl as [|? ? Hn Hl']; subst. constructor.
  - rewrite in_app_iff. intros [?|?]; [auto|]. apply (H x); auto.
  - apply IH; auto. intros y Hy Hy2. apply (H y); auto.
Qed.
Lemma inb_length i s : inb i s -> length i = length s.
Proof. induction 1; cbn; auto. Qed.
Lemma inb_cons x i n s : inb (x :: i) (n :: s) <-> x < n /\ inb i s.
Proof. split; [intros H; inversion H; auto|intros [? ?]; constructor; auto]. Qed.
Lemma inb_app i j s t : inb i s -> inb j t -> inb (i ++ j) (s ++ t).
Proof. apply Forall2_app. Qed.
Lemma inb_app_inv i j s t : length i = length s -> inb (i ++ j) (s ++ t) -> inb i s /\ inb j t.
Proof.
  revert s. induction i as [|x i IH]; intros [|n s] Hl; cbn in Hl; try lia; cbn.
  - intros H. split; [constructor|auto].
  - rewrite inb_cons. intros [Hx H]. apply IH in H; [|lia]. destruct H. split; auto.
    apply inb_cons; auto.
Qed.
Lemma inb_dec i s : inbb i s = true <-> inb i s.
Proof.
  revert s. induction i as [|x i IH]; intros [|n s]; cbn; split; intros H; try discriminate; try constructor;
    try (inversion H; fail).
  - apply andb_true_iff in H. destruct H as [H _]. apply Nat.ltb_lt in H. auto.
  - apply andb_true_iff in H. destruct H as [_ H]. apply IH; auto.
  - apply inb_cons in H. destruct H as [H1 H2]. apply andb_true_iff. split; [apply Nat.ltb_lt; auto|].
    apply IH; auto.
Qed.
Lemma inb_nth i s d : inb i s -> d < length s -> nth d i 0 < nth d s 0.
Proof.
  intros H. revert d. induction H as [|x n i s Hx H IH]; intros d Hd; cbn in *; [lia|].
  destruct d; [auto|]. apply IH. lia.
Qed.
Lemma inb_of_nth i s : length i = length s -> (forall d, d < length s -> nth d i 0 < nth d s 0) -> inb i s.
Proof.
  revert s. induction i as [|x i IH]; intros [|n s] Hl H; cbn in Hl; try lia; [constructor|].
  apply inb_cons. split.
  - apply (H 0). cbn. lia.
  - apply IH; [lia|]. intros d Hd. apply (H (S d)). cbn. lia.
Qed.

Lemma allix_spec i s : In i (allix s) <-> inb i s.
Proof.
  revert i. induction s as [|n s IH]; intros i; cbn.
  - split; [intros [<-|[]]; constructor|intros H; inversion H; auto].
  - rewrite in_flat_map. split.
    + intros (x & Hx & H). apply in_map_iff in H. destruct H as (j & <- & Hj).
      apply in_seq in Hx. apply inb_cons. split; [lia|]. apply IH; auto.
    + intros H. destruct i as [|x i]; [inversion H|]. apply inb_cons in H. destruct H as [Hx H].
      exists x. split; [apply in_seq; lia|]. apply in_map. apply IH; auto.
Qed.
Lemma allix_NoDup s : NoDup (allix s).
Proof.
  induction s as [|n s IH]; cbn; [repeat constructor; auto|].
  assert (forall l, NoDup l -> NoDup (flat_map (fun x => map (cons x) (allix s)) l)) as H.
  { induction l as [|x l IHl]; cbn; [constructor|]. intros Hnd. inversion Hnd as [|? ? Hn Hnd']; subst.
    apply NoDup_app_intro.
    - apply FinFun.Injective_map_NoDup; auto. intros a b E. congruence.
    - auto.
    - intros i Hi Hi2. apply in_map_iff in Hi. destruct Hi as (j & <- & _).
      apply in_flat_map in Hi2. destruct Hi2 as (y & Hy & Hy2). apply in_map_iff in Hy2.
      destruct Hy2 as (j' & E & _). congruence. }
  apply H. apply seq_NoDup.
Qed.

Lemma prod_app s t : prod (s ++ t) = prod s * prod t.
Proof. induction s as [|n s IH]; cbn; [lia|]. rewrite IH. lia. Qed.
Lemma inb_prod_pos i s : inb i s -> 0 < prod s.
Proof. induction 1 as [|x n i s Hx _ IH]; cbn; [lia|]. destruct n; [lia|]. nia. Qed.
Lemma ravel_lt i s : inb i s -> ravel_ix s i < prod s.
Proof. induction 1 as [|x n i s Hx H IH]; cbn; [lia|]. nia. Qed.
Lemma unravel_ravel i s : inb i s -> unravel_ix s (ravel_ix s i) = i.
Proof.
  induction 1 as [|x n i s Hx H IH]; cbn; [reflexivity|].
  pose proof (ravel_lt H). f_equal.
  - rewrite Nat.div_add_l by lia. rewrite Nat.div_small by lia. lia.
  - rewrite Nat.add_comm, Nat.mod_add by lia. rewrite Nat.mod_small by lia. apply IH.
Qed.
Lemma unravel_inb s k : k < prod s -> inb (unravel_ix s k) s.
Proof.
  revert k. induction s as [|n s IH]; cbn; intros k Hk; [constructor|].
  assert (0 < prod s) by (destruct (prod s); lia).
  apply inb_cons. split.
  - apply Nat.div_lt_upper_bound; lia.
  - apply IH. apply Nat.mod_upper_bound. lia.
Qed.
Lemma ravel_unravel s k : k < prod s -> ravel_ix s (unravel_ix s k) = k.
Proof.
  revert k. induction s as [|n s IH]; cbn; intros k Hk; [lia|].
  assert (0 < prod s) by (destruct (prod s); lia).
  rewrite IH by (apply Nat.mod_upper_bound; lia).
  pose proof (Nat.div_mod k (prod s)). lia.
Qed.
Lemma ravel_app s t i j : length i = length s ->
  ravel_ix (s ++ t) (i ++ j) = ravel_ix s i * prod t + ravel_ix t j.
Proof.
  revert i. induction s as [|n s IH]; intros [|x i] Hl; cbn in *; try lia.
  rewrite IH by lia. rewrite prod_app. lia.
Qed.
Lemma unravel_app s t m n : n < prod t -> m < prod s ->
  unravel_ix (s ++ t) (m * prod t + n) = unravel_ix s m ++ unravel_ix t n.
Proof.
  intros Hn Hm.
  rewrite <- (unravel_ravel (i := unravel_ix s m ++ unravel_ix t n) (s := s ++ t)).
  - rewrite ravel_app by (apply inb_length, unravel_inb; auto).
    rewrite !ravel_unravel by auto. reflexivity.
  - apply inb_app; apply unravel_inb; auto.
Qed.
Lemma unravel_length s k : length (unravel_ix s k) = length s.
Proof. revert k. induction s; cbn; auto. Qed.

Lemma allix_unravel s : allix s = map (unravel_ix s) (seq 0 (prod s)).
Proof.
  induction s as [|n s IH]; [reflexivity|]. cbn [allix prod].
  rewrite IH. clear IH.
  assert (forall a m, flat_map (fun x => map (cons x) (map (unravel_ix s) (seq 0 (prod s)))) (seq a m)
     = map (unravel_ix (n :: s)) (seq (a * prod s) (m * prod s))) as H.
  { intros a m. revert a. induction m as [|m IHm]; intros a; [reflexivity|].
    cbn [seq flat_map]. rewrite IHm. cbn [Nat.mul]. rewrite seq_app, map_app.
    f_equal; [|do 2 f_equal; lia].
    apply nth_ext with (d := []) (d' := []); [rewrite !map_length, !seq_length; auto|].
    intros k Hk. rewrite !map_length, seq_length in Hk.
    assert (0 < prod s) by lia.
    rewrite map_map.
    rewrite nth_map_in with (dx := 0) by (rewrite seq_length; auto).
    rewrite nth_map_in with (dx := 0) by (rewrite seq_length; auto).
    rewrite !seq_nth by auto. cbn. f_equal.
    - rewrite Nat.div_add_l by lia. rewrite Nat.div_small; lia.
    - rewrite Nat.add_comm, Nat.mod_add by lia. rewrite Nat.mod_small; auto. }
  rewrite (H 0 n). reflexivity.
Qed.
Lemma allix_length s : length (allix s) = prod s.
Proof. rewrite allix_unravel, map_length, seq_length. reflexivity. Qed.
Lemma nth_allix s k d : k < prod s -> nth k (allix s) d = unravel_ix s k.
Proof.
  intros H. rewrite allix_unravel. rewrite nth_map_in with (dx := 0) by (rewrite seq_length; auto).
  rewrite seq_nth by auto. reflexivity.
Qed.
Lemma nth_ravel_allix s i d : inb i s -> nth (ravel_ix s i) (allix s) d = i.
Proof. intros H. rewrite nth_allix by (apply ravel_lt; auto). apply unravel_ravel; auto. Qed.

Section SumIx.
Context {A : Type} {RA : CRing A}.
Add Ring Aring : (@rth A RA).
Open Scope cr_scope.
Lemma sum_unravel s (f : ix -> A) : sumn (prod s) (fun k => f (unravel_ix s k)) = sumL (allix s) f.
Proof. rewrite allix_unravel, sumL_map. reflexivity. Qed.
Lemma sum_allix_cons n s (f : ix -> A) :
  sumL (allix (n :: s)) f = sumn n (fun x => sumL (allix s) (fun i => f (x :: i))).
Proof.
  cbn [allix]. rewrite sumL_flat_map. apply sumL_ext. intros x _. rewrite sumL_map. reflexivity.
Qed.
Lemma sum_allix_app s t (f : ix -> A) :
  sumL (allix (s ++ t)) f = sumL (allix s) (fun i => sumL (allix t) (fun j => f (i ++ j))).
Proof.
  revert f. induction s as [|n s IH]; intros f.
  - assert (forall x : A, x = x + 0) as E by (intros; ring). apply E.
  - change ((n :: s) ++ t) with (n :: (s ++ t)). rewrite !sum_allix_cons.
    apply sumn_ext. intros x _. rewrite IH. reflexivity.
Qed.
Lemma sum_delta s (q : ix) (f : ix -> A) : inb q s ->
  sumL (allix s) (fun i => if list_eq_dec Nat.eq_dec i q then f i else 0) = f q.
Proof.
  intros Hq. rewrite (sumL_single (x := q)).
  - destruct (list_eq_dec Nat.eq_dec q q); congruence.
  - apply allix_NoDup.
  - apply allix_spec; auto.
  - intros y _ Hy. destruct (list_eq_dec Nat.eq_dec y q); congruence.
Qed.
End SumIx.

(* ---- reshape ---- *)
Section Reshape.
Context {A : Type}.
Implicit Types a : nd A.
Lemma reshape_at s a i : at_ (reshape s a) i = at_ a (unravel_ix (sh a) (ravel_ix s i)).
Proof. reflexivity. Qed.
(* merging the leading axes s into one axis of size prod s *)
Lemma reshape_merge_lead s t a m j : sh a = s ++ t -> m < prod s -> inb j t ->
  at_ (reshape (prod s :: t) a) (m :: j) = at_ a (unravel_ix s m ++ j).
Proof.
  intros Hs Hm Hj. rewrite reshape_at, Hs. cbn [ravel_ix].
  rewrite unravel_app by (auto; apply ravel_lt; auto). rewrite unravel_ravel by auto. reflexivity.
Qed.
Lemma reshape_split_lead s t a i j : sh a = prod s :: t -> inb i s -> inb j t ->
  at_ (reshape (s ++ t) a) (i ++ j) = at_ a (ravel_ix s i :: j).
Proof.
  intros Hs Hi Hj. rewrite reshape_at, Hs. rewrite ravel_app by (apply inb_length; auto).
  assert (ravel_ix s i * prod t + ravel_ix t j = ravel_ix (prod s :: t) (ravel_ix s i :: j)) as E by reflexivity.
  rewrite E, unravel_ravel; [reflexivity|]. constructor; auto. apply ravel_lt; auto.
Qed.
Lemma reshape_ravel_eq s a i i' : inb i' (sh a) -> ravel_ix s i = ravel_ix (sh a) i' ->
  at_ (reshape s a) i = at_ a i'.
Proof. intros H E. rewrite reshape_at, E, unravel_ravel; auto. Qed.
End Reshape.

(* ---- transpose ---- *)
Definition is_perm (p : list nat) (n : nat) : Prop := Permutation p (seq 0 n).
Lemma is_perm_length p n : is_perm p n -> length p = n.
Proof. intros H. apply Permutation_length in H. rewrite seq_length in H. auto. Qed.
Lemma is_perm_NoDup p n : is_perm p n -> NoDup p.
Proof. intros H. eapply Permutation_NoDup; [apply Permutation_sym; exact H|]. apply seq_NoDup. Qed.
Lemma is_perm_In p n d : is_perm p n -> (In d p <-> d < n).
Proof.
  intros H. split; intros Hd.
  - apply (Permutation_in _ H) in Hd. apply in_seq in Hd. lia.
  - apply (Permutation_in _ (Permutation_sym H)). apply in_seq. lia.
Qed.
Lemma permute_inv p n i : is_perm p n -> length i = n ->
  map (fun d => nth (pos d p) (permute p i) 0) (seq 0 n) = i.
Proof.
  intros Hp Hi. transitivity (map (fun d => nth d i 0) (seq 0 (length i))); [|apply map_nth_seq].
  rewrite Hi. apply map_ext_in. intros d Hd.
  apply in_seq in Hd. unfold permute.
  assert (In d p) by (apply (is_perm_In d Hp); lia).
  rewrite nth_map_in with (dx := 0) by (apply pos_lt; auto).
  rewrite nth_pos by auto. reflexivity.
Qed.
Lemma transpose_at {A} p (a : nd A) i : is_perm p (ndim a) -> length i = ndim a ->
  at_ (transpose p a) (permute p i) = at_ a i.
Proof. intros Hp Hi. unfold transpose. cbn. rewrite permute_inv; auto. Qed.
Lemma argsort_length p : length (argsort p) = length p.
Proof. unfold argsort. rewrite map_length, seq_length. reflexivity. Qed.
Lemma argsort_nth p d : d < length p -> nth d (argsort p) 0 = pos d p.
Proof.
  intros H. unfold argsort. rewrite nth_map_in with (dx := 0) by (rewrite seq_length; auto).
  rewrite seq_nth; auto.
Qed.
Lemma pos_argsort p n d : is_perm p n -> d < n -> pos d (argsort p) = nth d p 0.
Proof.
  intros Hp Hd. pose proof (is_perm_length Hp) as Hl.
  assert (NoDup (argsort p)) as Hnd.
  { unfold argsort.
    assert (forall l, NoDup l -> (forall x, In x l -> In x p) -> NoDup (map (fun d => pos d p) l)) as H.
    { induction l as [|x l IH]; cbn; intros Hn Hin; [constructor|].
      inversion Hn as [|? ? Hx Hn']; subst. constructor.
      - rewrite in_map_iff. intros (y & E & Hy). apply Hx.
        assert (x = y) as ->; auto.
        rewrite <- (nth_pos x p 0) by auto. rewrite <- E. apply nth_pos. auto.
      - apply IH; auto. }
    apply H; [apply seq_NoDup|]. intros x Hx. apply in_seq in Hx. apply (is_perm_In x Hp). lia. }
  assert (In (nth d p 0) p) as Hin by (apply nth_In; lia).
  assert (nth d p 0 < n) by (apply (is_perm_In _ Hp); auto).
  rewrite <- (pos_nth (l := argsort p) (k := nth d p 0) 0 Hnd) by (rewrite argsort_length; lia).
  f_equal. rewrite argsort_nth by lia. rewrite pos_nth; auto; [|lia]. eapply is_perm_NoDup; eauto.
Qed.
Lemma argsort_perm p n : is_perm p n -> is_perm (argsort p) n.
Proof.
  intros Hp. unfold is_perm. apply NoDup_Permutation_bis.
  - apply NoDup_nth with (d := 0). intros i j Hi Hj E. rewrite argsort_length in *.
    rewrite (is_perm_length Hp) in *.
    rewrite !argsort_nth in E by (rewrite (is_perm_length Hp); auto).
    rewrite <- (nth_pos i p 0), <- (nth_pos j p 0) by (apply (is_perm_In _ Hp); auto). congruence.
  - rewrite seq_length, argsort_length, (is_perm_length Hp). auto.
  - intros x Hx. apply in_map_iff in Hx. destruct Hx as (d & <- & Hd).
    rewrite (is_perm_length Hp) in Hd.
    apply in_seq. split; [lia|]. cbn. rewrite <- (is_perm_length Hp). apply pos_lt.
    apply (is_perm_In _ Hp). apply in_seq in Hd. lia.
Qed.
Lemma transpose_argsort_at {A} p (b : nd A) i : is_perm p (ndim b) -> length i = ndim b ->
  at_ (transpose (argsort p) b) i = at_ b (permute p i).
Proof.
  intros Hp Hi. unfold transpose. cbn. f_equal. unfold permute.
  transitivity (map (fun d => nth d i 0) (map (fun d => nth d p 0) (seq 0 (length p)))); [|rewrite map_nth_seq; auto].
  rewrite map_map. rewrite (is_perm_length Hp).
  apply map_ext_in. intros d Hd. apply in_seq in Hd. rewrite (pos_argsort Hp); auto. lia.
Qed.
Lemma permute_argsort p n (l : list nat) : is_perm p n -> length l = n ->
  permute (argsort p) (permute p l) = l.
Proof.
  intros Hp Hl. unfold argsort. unfold permute at 1. rewrite map_map. rewrite (is_perm_length Hp).
  apply permute_inv; auto.
Qed.
Lemma permute_length p l : length (permute p l) = length p.
Proof. apply map_length. Qed.
Lemma permute_app p q l : permute (p ++ q) l = permute p l ++ permute q l.
Proof. apply map_app. Qed.
Lemma permute_inb p i s : (forall d, In d p -> d < length s) -> inb i s -> inb (permute p i) (permute p s).
Proof.
  intros Hp Hi. induction p as [|d p IH]; cbn; [constructor|].
  constructor.
  - apply inb_nth; auto. apply Hp. cbn. auto.
  - apply IH. intros x Hx. apply Hp. cbn. auto.
Qed.
Lemma permute_seq_tail (l : list nat) n a : length l = a + n ->
  permute (seq a n) l = skipn a l.
Proof.
  intros H. apply nth_ext with (d := 0) (d' := 0).
  - rewrite permute_length, seq_length, skipn_length. lia.
  - intros k Hk. rewrite permute_length, seq_length in Hk. unfold permute.
    rewrite nth_map_in with (dx := 0) by (rewrite seq_length; auto). rewrite seq_nth by auto.
    clear H Hk. revert l. induction a as [|a IH]; intros l; [reflexivity|].
    destruct l; cbn; [destruct k; reflexivity|]. apply IH.
Qed.

(* ---- broadcasting ---- *)
Lemma map2_length {X Y Z} (f : X -> Y -> Z) l m : length (map2 f l m) = Nat.min (length l) (length m).
Proof. revert m. induction l as [|x l IH]; intros [|y m]; cbn; auto. Qed.
Lemma bproj_same s p : inb p s -> bproj s p = p.
Proof.
  intros H. unfold bproj. rewrite (inb_length H), Nat.sub_diag. cbn.
  induction H as [|x n i s Hx H IH]; cbn; [reflexivity|]. rewrite IH.
  destruct (Nat.eqb_spec n 1); [f_equal; lia|reflexivity].
Qed.
Lemma bproj_cons_same n s x p : length p = length s -> x < n -> bproj (n :: s) (x :: p) = x :: bproj s p.
Proof.
  intros Hl Hx. unfold bproj. cbn. rewrite Hl, Nat.sub_diag. cbn.
  destruct (Nat.eqb_spec n 1); f_equal. lia.
Qed.

(* ---- unique ---- *)
Definition Zincr : list Z -> Prop := StronglySorted Z.lt.
Lemma insZ_In x y l : In y (insZ x l) <-> y = x \/ In y l.
Proof.
  induction l as [|z l IH]; cbn; [intuition|].
  destruct (Z.eqb_spec x z) as [->|]; [cbn; intuition|].
  destruct (Z.ltb_spec x z); cbn; [intuition|]. rewrite IH. intuition.
Qed.
Lemma insZ_sorted x l : Zincr l -> Zincr (insZ x l).
Proof.
  unfold Zincr. induction l as [|z l IH]; cbn; intros H; [repeat constructor|].
  destruct (Z.eqb_spec x z) as [->|]; [auto|].
  inversion H as [|? ? Hs Hf]; subst.
  destruct (Z.ltb_spec x z).
  - constructor; auto. constructor; [lia|]. eapply Forall_impl; [|exact Hf]. intros; lia.
  - constructor; auto. rewrite Forall_forall. intros y Hy. apply insZ_In in Hy.
    destruct Hy as [->|Hy]; [lia|]. rewrite Forall_forall in Hf. auto.
Qed.
Lemma uniqZ_In x l : In x (uniqZ l) <-> In x l.
Proof. induction l as [|y l IH]; cbn; [tauto|]. rewrite insZ_In, IH. intuition. Qed.
Lemma uniqZ_sorted l : Zincr (uniqZ l).
Proof. induction l as [|y l IH]; cbn; [constructor|]. apply insZ_sorted; auto. Qed.
Lemma Zincr_NoDup l : Zincr l -> NoDup l.
Proof.
  induction 1 as [|x l _ IH Hf]; constructor; auto. intros Hin. rewrite Forall_forall in Hf.
  apply Hf in Hin. lia.
Qed.
Lemma uniqZ_NoDup l : NoDup (uniqZ l).
Proof. apply Zincr_NoDup, uniqZ_sorted. Qed.
Lemma zmem_In x l : zmem x l = true <-> In x l.
Proof.
  unfold zmem. rewrite existsb_exists. split.
  - intros (y & Hy & E). apply Z.eqb_eq in E. congruence.
  - intros H. exists x. split; auto. apply Z.eqb_refl.
Qed.
Lemma zpos_lt x l : In x l -> zpos x l < length l.
Proof.
  induction l as [|y l IH]; cbn; [tauto|]. destruct (Z.eqb_spec y x); [lia|].
  intros [H|H]; [lia|]. apply IH in H. lia.
Qed.
Lemma nth_zpos x l d : In x l -> nth (zpos x l) l d = x.
Proof.
  induction l as [|y l IH]; cbn; [tauto|]. destruct (Z.eqb_spec y x); [auto|].
  intros [H|H]; [lia|]. auto.
Qed.
Lemma zpos_unique x l s d : In x l -> s < length l -> nth s l d = x ->
  (forall t, t < length l -> nth t l d = x -> t = s) -> zpos x l = s.
Proof.
  intros Hin Hs E Hu. apply Hu; [apply zpos_lt; auto|]. apply nth_zpos; auto.
Qed.

(* ---- upd / dropn / insn ---- *)
Lemma upd_length d v l : length (upd d v l) = length l.
Proof. revert d. induction l as [|x l IH]; intros [|d]; cbn; auto. Qed.
Lemma nth_upd d v l k def : nth k (upd d v l) def = if (Nat.eqb k d && (k <? length l)) then v else nth k l def.
Proof.
  revert d k. induction l as [|x l IH]; intros [|d] [|k]; cbn; auto.
  - destruct (Nat.eqb_spec k d); cbn; destruct k; auto.
  - rewrite IH. reflexivity.
Qed.
Lemma upd_inb d i s n v : inb i s -> v < n -> inb (upd d v i) (upd d n s).
Proof.
  intros H Hv. revert d. induction H as [|x m i s Hx H IH]; intros [|d]; cbn; constructor; auto.
  apply IH.
Qed.
Lemma upd_inb_left d i s : inb i s -> inb i (upd d 1 s) -> nth d i 0 = 0 \/ length i <= d.
Proof.
  intros H. revert d. induction H as [|x m i s Hx H IH]; intros [|d] H2; cbn in *; [lia|lia| |].
  - apply inb_cons in H2. lia.
  - apply inb_cons in H2. destruct H2 as [_ H2]. apply IH in H2. lia.
Qed.
