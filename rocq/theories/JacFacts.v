(* JacFacts.v : correctness of get_index_mask, construct_jac_for, dense_array, __add__ *)
From Verif Require Export ApiFacts.
From Coq Require Import ZifyBool.
Set Implicit Arguments.

Lemma reshape2_at {B} (a : nd B) k s r b : sh a = k :: s -> r < k -> b < prod s ->
  at_ (reshape [k; prod s] a) [r; b] = at_ a (r :: unravel_ix s b).
Proof.
  intros Hs Hr Hb. apply reshape_ravel_eq.
  - rewrite Hs. apply inb_cons. split; auto. apply unravel_inb; auto.
  - rewrite Hs. cbn [ravel_ix prod]. rewrite ravel_unravel by auto. lia.
Qed.
Lemma reshape2_back {B} (a : nd B) k s r p : sh a = [k; prod s] -> r < k -> inb p s ->
  at_ (reshape (k :: s) a) (r :: p) = at_ a [r; ravel_ix s p].
Proof.
  intros Hs Hr Hp. apply reshape_ravel_eq.
  - rewrite Hs. repeat constructor; auto. apply ravel_lt; auto.
  - rewrite Hs. cbn [ravel_ix prod]. lia.
Qed.
Lemma transpose10_at {B} (a : nd B) x y i j : sh a = [x; y] ->
  at_ (transpose [1; 0] a) [i; j] = at_ a [j; i].
Proof. intros H. unfold transpose, ndim. rewrite H. reflexivity. Qed.
Lemma transpose10_sh {B} (a : nd B) x y : sh a = [x; y] -> sh (transpose [1; 0] a) = [y; x].
Proof. intros H. unfold transpose. cbn [sh]. rewrite H. reflexivity. Qed.

(* the index list requested at position p *)
Definition olist (o : nd Z) (t : shape) (K : nat) (p : ix) : list Z :=
  map (fun s => at_ o (s :: bproj t p)) (seq 0 K).
Lemma olist_length o t K p : length (olist o t K p) = K.
Proof. unfold olist. rewrite map_length, seq_length. auto. Qed.
Lemma olist_nth o t K p s d : s < K -> nth s (olist o t K p) d = at_ o (s :: bproj t p).
Proof.
  intros H. unfold olist. rewrite nth_map_in with (dx := 0) by (rewrite seq_length; auto).
  rewrite seq_nth by auto. reflexivity.
Qed.

Section J.
Context {A : Type} {RA : CRing A}.
Add Ring Aring2 : (@rth A RA).
Open Scope cr_scope.
Implicit Types J : jac A.

Lemma get_index_mask_spec J m o k s K t :
  jidx J = Some m -> sh m = k :: s -> sh o = K :: t -> bto t s -> (0 < K)%nat ->
  exists res, get_index_mask J o = Some res /\ sh res = k :: s /\
  forall r p, (r < k)%nat -> inb p s ->
    at_ res (r :: p) = let l := olist o t K p in
                       if zmem (at_ m (r :: p)) l then Z.of_nat (zpos (at_ m (r :: p)) l) else (-1)%Z.
Proof.
  intros HJ Hm Ho Ht HK. unfold get_index_mask, mask, bexc. rewrite (rows_cons _ Ho).
  destruct (Nat.eqb_spec K 0); [lia|]. rewrite HJ, Hm, Ho. cbn [tl].
  rewrite bshape2_bto_l by auto. cbn [bind]. rewrite !bexc1_sh. cbn [tl].
  rewrite (rows_cons _ Hm).
  assert (rows (bexc1 s m) = k) as R1 by (unfold rows; rewrite bexc1_sh; apply (rows_cons _ Hm)).
  assert (rows (bexc1 s o) = K) as R2 by (unfold rows; rewrite bexc1_sh; apply (rows_cons _ Ho)).
  rewrite R1, R2.
  eexists. split; [reflexivity|]. split; [reflexivity|].
  intros r p Hr Hp. pose proof (ravel_lt Hp) as Hb.
  rewrite reshape2_back by (auto; erewrite transpose10_sh by reflexivity; reflexivity).
  erewrite transpose10_at by reflexivity. cbn [at_ nth].
  assert (at_ (transpose [1%nat; 0%nat] (reshape [k; prod s] (bexc1 s m))) [ravel_ix s p; r] = at_ m (r :: p)) as E1.
  { erewrite transpose10_at by reflexivity.
    rewrite reshape2_at by (auto; rewrite bexc1_sh, (rows_cons _ Hm); auto).
    rewrite unravel_ravel by auto. rewrite bexc1_at with (k := k) (t := s); auto.
    - rewrite bproj_same; auto.
    - rewrite (inb_length Hp). auto. }
  assert (map (fun s0 => at_ (transpose [1%nat; 0%nat] (reshape [K; prod s] (bexc1 s o))) [ravel_ix s p; s0]) (seq 0 K) = olist o t K p) as E2.
  { apply map_ext_in. intros s0 Hs0. apply in_seq in Hs0.
    erewrite transpose10_at by reflexivity.
    rewrite reshape2_at; [|rewrite bexc1_sh, (rows_cons _ Ho); auto|lia|auto].
    rewrite unravel_ravel by auto. apply bexc1_at with (k := K); auto; [lia|].
    rewrite (inb_length Hp). apply bto_length; auto. }
  rewrite E1, E2. cbn zeta. unfold argmax_eq. destruct (zmem _ (olist o t K p)); auto.
Qed.

(* construct_jac_for on a sparse Jacobian; the data at index -1 matters only if -1 is requested *)
Lemma construct_sparse_gen J m o n k s K t :
  jwf0 n s J -> jidx J = Some m -> sh (jdata J) = k :: s -> sh o = K :: t -> bto t s -> (0 < K)%nat ->
  exists res, construct_jac_for_idx J o = Some res /\ sh res = K :: s /\
  forall q p, (q < K)%nat -> inb p s ->
    let z := at_ o (q :: bproj t p) in
    ((0 <= z)%Z \/ jwf n s J) ->
    at_ res (q :: p) = if (0 <=? z)%Z && Nat.eqb (zpos z (olist o t K p)) q then jent J (Z.to_nat z) p else 0.
Proof.
  intros Hwf HJ Hd Ho Ht HK.
  destruct Hwf as (k' & Hd' & Hw). rewrite HJ in Hw. destruct Hw as [Hm Hw].
  assert (k' = k) as -> by congruence.
  unfold construct_jac_for_idx. rewrite (rows_cons _ Ho). destruct (Nat.eqb_spec K 0) as [->|_]; [lia|].
  rewrite HJ.
  destruct (get_index_mask_spec J o HJ Hm Ho Ht HK) as (im & -> & Him & Hat). cbn [bind].
  destruct (materialize_spec J true im K Hd Him) as (res & -> & Hres & Hra).
  exists res. split; [reflexivity|]. split; [exact Hres|].
  intros q p Hq Hp Hor. set (z := at_ o (q :: bproj t p)) in *. rewrite Hra by auto.
  assert (nth q (olist o t K p) (-1)%Z = z) as Hz by (rewrite olist_nth by auto; reflexivity).
  assert (In z (olist o t K p)) as Hin.
  { rewrite <- Hz. apply nth_In. rewrite olist_length. auto. }
  assert (forall r, (r < k)%nat -> Z.eqb (at_ im (r :: p)) (Z.of_nat q) =
            (Z.eqb (at_ m (r :: p)) z && Nat.eqb (zpos z (olist o t K p)) q)%bool) as Heq.
  { intros r Hr. rewrite Hat by auto. cbn zeta.
    destruct (zmem (at_ m (r :: p)) (olist o t K p)) eqn:E.
    - apply zmem_In in E. destruct (Z.eqb_spec (at_ m (r :: p)) z) as [->|Hne]; cbn [andb].
      + destruct (Nat.eqb_spec (zpos z (olist o t K p)) q); lia.
      + apply Z.eqb_neq. intros Hc. apply Nat2Z.inj in Hc. apply Hne.
        rewrite <- Hz, <- Hc. symmetry. apply nth_zpos. auto.
    - destruct (Z.eqb_spec (at_ m (r :: p)) z) as [Hc|Hne]; cbn [andb]; [|lia].
      exfalso. rewrite Hc in E. apply zmem_In in Hin. congruence. }
  destruct (Z.leb_spec 0 z) as [Hz0|Hz0]; cbn [andb].
  - destruct (Nat.eqb (zpos z (olist o t K p)) q) eqn:E.
    + unfold jent. rewrite HJ, (rows_cons _ Hd). apply sumn_ext. intros r Hr.
      rewrite Heq by auto. rewrite andb_true_r. rewrite Z2Nat.id by auto. reflexivity.
    + apply sumn_zero. intros r Hr. rewrite Heq by auto. rewrite andb_false_r. reflexivity.
  - apply sumn_zero. intros r Hr. rewrite Heq by auto.
    destruct (Z.eqb_spec (at_ m (r :: p)) z) as [Hc|Hne]; cbn [andb]; auto.
    destruct (Nat.eqb _ q); auto. destruct Hor as [Hor|Hor]; [lia|].
    destruct Hor as (k2 & Hd2 & Hw2). rewrite HJ in Hw2. destruct Hw2 as [_ Hw2].
    assert (k2 = k) as -> by congruence. apply (Hw2 r p); auto. lia.
Qed.

Lemma construct_sparse_spec J m o n k s K t :
  jwf n s J -> jidx J = Some m -> sh (jdata J) = k :: s -> sh o = K :: t -> bto t s -> (0 < K)%nat ->
  exists res, construct_jac_for_idx J o = Some res /\ sh res = K :: s /\
  forall q p, (q < K)%nat -> inb p s ->
    let z := at_ o (q :: bproj t p) in
    at_ res (q :: p) = if (0 <=? z)%Z && Nat.eqb (zpos z (olist o t K p)) q then jent J (Z.to_nat z) p else 0.
Proof.
  intros Hwf HJ Hd Ho Ht HK. destruct (construct_sparse_gen o (jwf_jwf0 Hwf) HJ Hd Ho Ht HK) as (res & E & Hs & H).
  exists res. split; auto. split; auto. intros q p Hq Hp z. apply H; auto.
Qed.

Lemma fold_max_ge l z : (z <= fold_left Z.max l z)%Z /\ (forall x, In x l -> (x <= fold_left Z.max l z)%Z).
Proof.
  revert z. induction l as [|y l IH]; intros z; cbn; [split; [lia|tauto]|].
  destruct (IH (Z.max z y)) as [H1 H2]. split; [lia|]. intros x [->|Hx]; [lia|auto].
Qed.
Lemma fold_max_in l z : In (fold_left Z.max l z) (z :: l).
Proof.
  revert z. induction l as [|y l IH]; intros z; cbn; [auto|].
  destruct (IH (Z.max z y)) as [H|H]; [|auto].
  rewrite <- H. destruct (Z.max_spec z y) as [[_ ->]|[_ ->]]; auto.
Qed.
Lemma flat_In {B} (a : nd B) x : In x (flat a) <-> exists i, inb i (sh a) /\ at_ a i = x.
Proof.
  unfold flat. rewrite in_map_iff. split.
  - intros (i & H & Hi). exists i. split; auto. apply allix_spec; auto.
  - intros (i & Hi & H). exists i. split; auto. apply allix_spec; auto.
Qed.

Lemma map_const_zero_bproj o K (s : shape) p q : length p = length s -> (q < K)%nat ->
  o = arange_ext K s ->
  olist o (map (fun _ => 1%nat) s) K p = map Z.of_nat (seq 0 K) /\ at_ o (q :: bproj (map (fun _ => 1%nat) s) p) = Z.of_nat q.
Proof.
  intros Hl Hq ->. split; [|reflexivity]. unfold olist, arange_ext. cbn [at_ hd]. reflexivity.
Qed.
Lemma zpos_seq K q : (q < K)%nat -> zpos (Z.of_nat q) (map Z.of_nat (seq 0 K)) = q.
Proof.
  intros H. apply (@zpos_unique _ _ q (-1)%Z).
  - apply in_map. apply in_seq. lia.
  - rewrite map_length, seq_length. auto.
  - rewrite nth_map_in with (dx := 0%nat) by (rewrite seq_length; auto). rewrite seq_nth; auto.
  - intros t. rewrite map_length, seq_length. intros Ht.
    rewrite nth_map_in with (dx := 0%nat) by (rewrite seq_length; auto). rewrite seq_nth by auto. lia.
Qed.

(* a sparse Jacobian stores at least one entry (np.max of an empty index tensor is an error) *)
Definition nonempty J : Prop := match jidx J with None => True | Some m => exists i, inb i (sh m) end.

Theorem dense_array_spec0 J n s : jwf0 n s J -> nonempty J -> (0 < n)%nat ->
  exists D K, dense_array J = Some D /\ sh D = K :: s /\ (K <= n)%nat /\
    (forall i p, (i < K)%nat -> inb p s -> at_ D (i :: p) = jent J i p) /\
    (forall i p, (K <= i)%nat -> inb p s -> jent J i p = 0).
Proof.
  intros Hwf Hne Hn. pose proof Hwf as (k & Hd & Hw). unfold dense_array.
  destruct (jidx J) as [m|] eqn:HJ.
  - destruct Hw as [Hm Hw].
    assert (exists mx, max_n J = Some mx /\ (-1 <= mx < Z.of_nat n)%Z /\
              (forall r p, (r < k)%nat -> inb p s -> (at_ m (r :: p) <= mx)%Z)) as (mx & Hmx & Hmxr & Hge).
    { unfold max_n. rewrite HJ. unfold nonempty in Hne. rewrite HJ in Hne. destruct Hne as (i0 & Hi0).
      assert (In (at_ m i0) (flat m)) as H0 by (apply flat_In; eauto).
      destruct (flat m) as [|z l] eqn:Ef; [destruct H0|].
      eexists. split; [reflexivity|]. split.
      - assert (In (fold_left Z.max l z) (flat m)) as Hin by (rewrite Ef; apply fold_max_in).
        apply flat_In in Hin. destruct Hin as (i & Hi & <-). rewrite Hm in Hi.
        destruct i as [|r p]; [inversion Hi|]. apply inb_cons in Hi. apply Hw; tauto.
      - intros r p Hr Hp. assert (In (at_ m (r :: p)) (z :: l)) as Hin.
        { rewrite <- Ef. apply flat_In. exists (r :: p). rewrite Hm. split; auto. apply inb_cons; auto. }
        destruct (fold_max_ge l z) as [H1 H2]. destruct Hin as [<-|Hin]; auto. }
    rewrite Hmx. cbn [bind].
    assert (Hz : forall i p, (mx < Z.of_nat i)%Z -> inb p s -> jent J i p = 0).
    { intros i p Hi Hp. unfold jent. rewrite HJ, (rows_cons _ Hd). apply sumn_zero. intros r Hr.
      pose proof (Hge r p Hr Hp). destruct (Z.eqb_spec (at_ m (r :: p)) (Z.of_nat i)); auto. lia. }
    assert (data_shape J = s) as Hds by (unfold data_shape; rewrite Hd; reflexivity).
    rewrite Hds.
    destruct (Z.eq_dec mx (-1)) as [->|Hmx1].
    + cbn [Z.add]. unfold construct_jac_for_idx. cbn [arange_ext rows sh hd]. cbn.
      rewrite Hds. eexists. exists 1%nat. split; [reflexivity|]. split; [reflexivity|]. split; [lia|]. split.
      * intros i p Hi Hp. symmetry. apply Hz; auto. lia.
      * intros i p Hi Hp. apply Hz; auto. lia.
    + set (K := Z.to_nat (mx + 1)).
      destruct (@construct_sparse_gen J m (arange_ext K s) n k s K (map (fun _ => 1%nat) s)) as (D & -> & HD & Hat); auto.
      { apply bto_ones. }
      { unfold K. lia. }
      exists D, K. split; [reflexivity|]. split; [exact HD|]. split; [unfold K; lia|]. split.
      * intros i p Hi Hp. rewrite Hat by (auto; left; cbn; lia).
        destruct (@map_const_zero_bproj (arange_ext K s) K s p i) as [-> ->]; auto; [apply inb_length; auto|].
        rewrite zpos_seq by auto. rewrite Nat.eqb_refl. cbn zeta. destruct (Z.leb_spec 0 (Z.of_nat i)); [|lia].
        cbn [andb]. rewrite Nat2Z.id. reflexivity.
      * intros i p Hi Hp. apply Hz; auto. unfold K in Hi. lia.
  - exists (jdata J), k. split; auto. split; auto. split; auto. split.
    + intros i p Hi Hp. unfold jent. rewrite HJ, (rows_cons _ Hd). destruct (Nat.ltb_spec i k); [auto|lia].
    + intros i p Hi Hp. unfold jent. rewrite HJ, (rows_cons _ Hd). destruct (Nat.ltb_spec i k); [lia|auto].
Qed.

Theorem dense_array_spec J n s : jwf n s J -> nonempty J -> (0 < n)%nat ->
  exists D K, dense_array J = Some D /\ sh D = K :: s /\ (K <= n)%nat /\
    (forall i p, (i < K)%nat -> inb p s -> at_ D (i :: p) = jent J i p) /\
    (forall i p, (K <= i)%nat -> inb p s -> jent J i p = 0).
Proof. intros H. apply dense_array_spec0. apply jwf_jwf0; auto. Qed.

Lemma jent_dense D K s i p : sh D = K :: s ->
  jent (Jac D None) i p = if (i <? K)%nat then at_ D (i :: p) else 0 : A.
Proof. intros H. unfold jent. cbn. rewrite (rows_cons _ H). reflexivity. Qed.

Theorem as_dense_spec0 J n s : jwf0 n s J -> nonempty J -> (0 < n)%nat ->
  exists J', as_dense J = Some J' /\ weak J' = false /\ jwf n s J' /\
    forall i p, inb p s -> jent J' i p = jent J i p.
Proof.
  intros Hwf Hne Hn. destruct (dense_array_spec0 Hwf Hne Hn) as (D & K & E & HD & HK & H1 & H2).
  unfold as_dense. rewrite E. cbn [bind]. eexists. split; [reflexivity|]. split; [reflexivity|]. split.
  - exists K. cbn. auto.
  - intros i p Hp. rewrite (jent_dense _ _ _ HD). destruct (Nat.ltb_spec i K).
    + apply H1; auto.
    + symmetry. apply H2; auto.
Qed.

Theorem as_dense_spec J n s : jwf n s J -> nonempty J -> (0 < n)%nat ->
  exists J', as_dense J = Some J' /\ weak J' = false /\ jwf n s J' /\
    forall i p, inb p s -> jent J' i p = jent J i p.
Proof. intros H. apply as_dense_spec0. apply jwf_jwf0; auto. Qed.

(* ---- padding with zero rows ---- *)
Lemma extend1_sh (a : nd A) K s m : sh a = K :: s -> sh (extend1 m a) = Nat.max m K :: s.
Proof.
  intros H. unfold extend1. rewrite (rows_cons _ H), H. destruct (Nat.ltb_spec K m).
  - cbn. rewrite H. unfold rows. cbn. rewrite H. cbn. f_equal. lia.
  - rewrite H. f_equal. lia.
Qed.
Lemma extend1_at (a : nd A) K s m i p : sh a = K :: s ->
  (i < Nat.max m K)%nat -> at_ (extend1 m a) (i :: p) = if (i <? K)%nat then at_ a (i :: p) else 0.
Proof.
  intros H Hi. unfold extend1. rewrite (rows_cons _ H). destruct (Nat.ltb_spec K m).
  - cbn [concat0 at_ hd tl cat_at]. rewrite (rows_cons _ H). destruct (Nat.ltb_spec i K); auto.
    destruct (_ <? _)%nat; reflexivity.
  - destruct (Nat.ltb_spec i K); auto. lia.
Qed.
Lemma maxl_ge l x : In x l -> (x <= maxl l)%nat.
Proof. induction l as [|y l IH]; cbn; [tauto|]. intros [->|H]; [lia|]. apply IH in H. fold (maxl l). lia. Qed.
(* all arrays end up with the same number of rows, padded with zero *)
Lemma extend_jacobians_spec (l : list (nd A)) : l <> [] ->
  length (extend_jacobians l) = length l /\
  (forall j, (j < length l)%nat -> forall d K s, sh (nth j l d) = K :: s ->
     sh (nth j (extend_jacobians l) d) = maxl (map rows l) :: s /\
     forall i p, (i < maxl (map rows l))%nat ->
       at_ (nth j (extend_jacobians l) d) (i :: p) = if (i <? K)%nat then at_ (nth j l d) (i :: p) else 0).
Proof.
  intros Hl. unfold extend_jacobians. destruct l as [|a [|b l]]; [congruence| |].
  - split; auto. intros j Hj d K s Hs. cbn in Hj. assert (j = 0)%nat by lia. subst. cbn in *.
    rewrite (rows_cons _ Hs). rewrite Nat.max_0_r. split; auto.
    intros i p Hi. destruct (Nat.ltb_spec i K); auto; lia.
  - set (l0 := a :: b :: l) in *. set (M := maxl (map rows l0)).
    destruct (forallb (fun a0 => Nat.eqb (rows a0) M) l0) eqn:E.
    + split; auto. intros j Hj d K s Hs. rewrite forallb_forall in E.
      assert (rows (nth j l0 d) = M) as HM by (apply Nat.eqb_eq, E, nth_In; auto).
      rewrite (rows_cons _ Hs) in HM. subst K. split; auto.
      intros i p Hi. destruct (Nat.ltb_spec i M); auto; lia.
    + split; [apply map_length|]. intros j Hj d K s Hs.
      rewrite nth_map_in with (dx := d) by auto.
      assert (K <= M)%nat as HK.
      { apply maxl_ge. rewrite <- (rows_cons _ Hs). apply in_map. apply nth_In. auto. }
      split.
      * rewrite (extend1_sh _ _ Hs). f_equal. lia.
      * intros i p Hi. rewrite extend1_at with (K := K) (s := s); auto; lia.
Qed.

Lemma bin_same f (a b : nd A) s : sh a = s -> sh b = s ->
  exists c, bin f a b = Some c /\ sh c = s /\ forall i, inb i s -> at_ c i = f (at_ a i) (at_ b i).
Proof.
  intros Ha Hb. unfold bin. rewrite Ha, Hb, bshape2_refl. cbn [bind]. eexists. split; [reflexivity|].
  split; [reflexivity|]. intros i Hi. cbn. rewrite !bproj_same by auto. auto.
Qed.

(* ---- __add__ ---- *)
Lemma sumL_seq_le k K (f : nat -> A) : (k <= K)%nat -> (forall i, (k <= i < K)%nat -> f i = 0) -> sumn K f = sumn k f.
Proof. intros H Hf. apply sumn_ge; auto. Qed.

Theorem jadd_dense J K n s : jwf n s J -> jwf n s K -> nonempty J -> nonempty K -> (0 < n)%nat ->
  weak J && weak K = false ->
  exists R, jadd J K = Some R /\ weak R = false /\ jwf n s R /\
    forall i p, inb p s -> jent R i p = jent J i p + jent K i p.
Proof.
  intros HJ HK NJ NK Hn Hw.
  destruct (dense_array_spec HJ NJ Hn) as (D & kd & ED & SD & LD & D1 & D2).
  destruct (dense_array_spec HK NK Hn) as (E & ke & EE & SE & LE & E1 & E2).
  assert (jadd J K = let* d := add_jacobians D E in Some (Jac d None)) as ->.
  { unfold jadd. unfold weak in Hw. destruct (jidx J), (jidx K); try discriminate; rewrite ED, EE; reflexivity. }
  unfold add_jacobians.
  destruct (@extend_jacobians_spec [D; E] ltac:(congruence)) as [Hlen Hext].
  assert (H0 := Hext 0%nat (Nat.lt_0_succ _) D kd s SD).
  assert (H1 := Hext 1%nat (le_n _) D ke s SE).
  destruct (extend_jacobians [D; E]) as [|x [|y [|? ?]]]; cbn in Hlen; try lia.
  cbn [nth map maxl] in H0, H1. rewrite (rows_cons _ SD), (rows_cons _ SE) in *.
  destruct H0 as [S0 A0], H1 as [S1 A1].
  destruct (bin_same radd x y S0 S1) as (c & -> & Sc & Ac). cbn [bind].
  set (M := maxl [kd; ke]) in *. assert (M = Nat.max kd ke) as HM by (unfold M; cbn; lia).
  eexists. split; [reflexivity|]. split; [reflexivity|]. split.
  - exists M. cbn. split; auto. lia.
  - intros i p Hp. rewrite (jent_dense _ _ _ Sc). destruct (Nat.ltb_spec i M) as [Hi|Hi].
    + rewrite Ac by (apply inb_cons; auto). rewrite A0, A1 by lia. f_equal.
      * destruct (Nat.ltb_spec i kd); [apply D1; auto|symmetry; apply D2; auto].
      * destruct (Nat.ltb_spec i ke); [apply E1; auto|symmetry; apply E2; auto].
    + rewrite D2, E2 by (auto; lia). ring.
Qed.

Lemma concat2_at {B} (d : B) (a b : nd B) ka kb s r p : sh a = ka :: s -> sh b = kb :: s ->
  (r < ka + kb)%nat ->
  at_ (concat0 d [a; b]) (r :: p) = if (r <? ka)%nat then at_ a (r :: p) else at_ b ((r - ka)%nat :: p).
Proof.
  intros Ha Hb Hr. cbn [concat0 at_ hd tl cat_at]. rewrite (rows_cons _ Ha), (rows_cons _ Hb).
  destruct (Nat.ltb_spec r ka); auto. destruct (Nat.ltb_spec (r - ka) kb); auto. lia.
Qed.
Lemma concat2_sh {B} (d : B) (a b : nd B) ka kb s : sh a = ka :: s -> sh b = kb :: s ->
  sh (concat0 d [a; b]) = (ka + kb)%nat :: s.
Proof.
  intros Ha Hb. cbn. rewrite Ha, (rows_cons _ Ha), (rows_cons _ Hb). cbn. f_equal. lia.
Qed.

(* two sparse Jacobians: concatenating rows adds *)
Lemma concat_jac_spec J K mj mk n s : jwf n s J -> jwf n s K -> jidx J = Some mj -> jidx K = Some mk ->
  let R := Jac (concat0 0 [jdata J; jdata K]) (Some (concat0 (-1)%Z [mj; mk])) in
  jwf n s R /\ forall i p, inb p s -> jent R i p = jent J i p + jent K i p.
Proof.
  intros (k & SJ & HJ) (l & SK & HK) EJ EK R. rewrite EJ in HJ. rewrite EK in HK.
  destruct HJ as [SMJ HJ], HK as [SMK HK].
  assert (Sd := concat2_sh 0 _ _ SJ SK). assert (Sm := concat2_sh (-1)%Z _ _ SMJ SMK).
  split.
  - exists (k + l)%nat. split; [exact Sd|]. cbn [R jidx jdata]. split; [exact Sm|]. intros r p Hr Hp.
    rewrite (concat2_at _ _ _ _ SMJ SMK), (concat2_at _ _ _ _ SJ SK) by auto.
    destruct (Nat.ltb_spec r k); [apply HJ; auto|apply HK; auto; lia].
  - intros i p Hp. unfold jent, R. cbn [jidx jdata]. rewrite EJ, EK, (rows_cons _ Sd), (rows_cons _ SJ), (rows_cons _ SK).
    rewrite sumn_split. f_equal; apply sumn_ext; intros r Hr.
    * rewrite (concat2_at _ _ _ _ SMJ SMK), (concat2_at _ _ _ _ SJ SK) by lia.
      destruct (Nat.ltb_spec r k); [auto|lia].
    * rewrite (concat2_at _ _ _ _ SMJ SMK), (concat2_at _ _ _ _ SJ SK) by lia.
      destruct (Nat.ltb_spec (k + r) k); [lia|]. replace (k + r - k)%nat with r by lia. auto.
Qed.

(* two sparse Jacobians with the same number of stored rows *)
Theorem jadd_sparse J K n s : jwf n s J -> jwf n s K -> weak J = true -> weak K = true ->
  rows (jdata J) = rows (jdata K) ->
  exists R, jadd J K = Some R /\ weak R = true /\ jwf n s R /\
    forall i p, inb p s -> jent R i p = jent J i p + jent K i p.
Proof.
  intros (k & SJ & HJ) (k' & SK & HK) WJ WK Hr.
  rewrite (rows_cons _ SJ), (rows_cons _ SK) in Hr. subst k'.
  unfold weak in WJ, WK. destruct (jidx J) as [mj|] eqn:EJ; [|discriminate].
  destruct (jidx K) as [mk|] eqn:EK; [|discriminate].
  destruct HJ as [SMJ HJ], HK as [SMK HK].
  unfold jadd. rewrite EJ, EK. unfold np_eq_all. rewrite SMJ, SMK, bshape2_refl. cbn [bind].
  destruct (forallb _ (allix (k :: s))) eqn:E.
  - rewrite forallb_forall in E.
    assert (forall r p, (r < k)%nat -> inb p s -> at_ mk (r :: p) = at_ mj (r :: p)) as Heq.
    { intros r p Hr Hp. assert (inb (r :: p) (k :: s)) as Hin by (apply inb_cons; auto).
      specialize (E (r :: p)). rewrite !bproj_same in E by auto. apply Z.eqb_eq, E.
      apply allix_spec; auto. }
    destruct (bin_same radd _ _ SJ SK) as (d & -> & Sd & Ad). cbn [bind].
    eexists. split; [reflexivity|]. split; [reflexivity|].
    assert (Hat : forall r p, (r < k)%nat -> inb p s ->
       at_ (broadcast_to (k :: s) mj) (r :: p) = at_ mj (r :: p)).
    { intros r p Hr Hp. cbn [broadcast_to at_]. rewrite SMJ, bproj_same; auto. apply inb_cons; auto. }
    split.
    + exists k. split; [exact Sd|]. cbn [jidx]. split; [reflexivity|]. intros r p Hr Hp.
      rewrite Hat by auto. destruct (HJ r p Hr Hp) as [B1 B2], (HK r p Hr Hp) as [C1 C2].
      rewrite Heq in * by auto. split; auto. intros Hneg. cbn [jdata].
      rewrite Ad by (apply inb_cons; auto). rewrite B2, C2 by auto. ring.
    + intros i p Hp. unfold jent. cbn [jidx jdata]. rewrite EJ, EK, (rows_cons _ Sd), (rows_cons _ SJ), (rows_cons _ SK).
      unfold sumn. rewrite <- sumL_add. apply sumL_ext. intros r Hr. apply in_seq in Hr.
      rewrite Hat, Heq by (auto; lia). rewrite Ad by (apply inb_cons; split; [lia|auto]).
      destruct (Z.eqb _ _); ring.
  - eexists. split; [reflexivity|]. split; [reflexivity|].
    apply (@concat_jac_spec J K mj mk n s); auto.
    + exists k. rewrite EJ. auto.
    + exists k. rewrite EK. auto.
Qed.

(* all pairs of stored indices agree: the condition under which __add__ adds the stored data directly *)
Definition same_idx (k l : nat) (s : shape) (mj mk : nd Z) : Prop :=
  forall r t p, (r < k)%nat -> (t < l)%nat -> inb p s -> at_ mj (r :: p) = at_ mk (t :: p).
Lemma bshape2_rows k l s r : bshape2 (k :: s) (l :: s) = Some r -> k = l \/ k = 1%nat \/ l = 1%nat.
Proof.
  unfold bshape2. cbn [rev]. intros H. destruct (bsr (rev s ++ [k]) (rev s ++ [l])) as [w|] eqn:E; [|discriminate].
  clear H. revert w E. induction (rev s) as [|a u IH]; cbn; intros w E.
  - destruct (Nat.eqb_spec k l); auto. destruct (Nat.eqb_spec k 1); auto. destruct (Nat.eqb_spec l 1); auto. discriminate.
  - destruct (bsr (u ++ [k]) (u ++ [l])) as [w'|]; [|discriminate]. eapply IH. reflexivity.
Qed.
(* __add__ of two sparse Jacobians, whatever their numbers of rows: if it returns, and unless one operand has
   exactly one row, the other a different number of rows, and all stored indices coincide, the result is the sum *)
Theorem jadd_sparse_sound J K mj mk n s R : jwf n s J -> jwf n s K -> jidx J = Some mj -> jidx K = Some mk ->
  jadd J K = Some R ->
  (rows (jdata J) = rows (jdata K) \/ ~ same_idx (rows (jdata J)) (rows (jdata K)) s mj mk) ->
  weak R = true /\ jwf n s R /\ forall i p, inb p s -> jent R i p = jent J i p + jent K i p.
Proof.
  intros HJ HK EJ EK E Hor. pose proof HJ as (k & SJ & HJ'). rewrite EJ in HJ'. destruct HJ' as [SMJ _].
  pose proof HK as (l & SK & HK'). rewrite EK in HK'. destruct HK' as [SMK _].
  rewrite (rows_cons _ SJ), (rows_cons _ SK) in *.
  destruct (Nat.eq_dec k l) as [Hkl|Hkl].
  - destruct (jadd_sparse HJ HK) as (R' & E' & H); auto; try (unfold weak; rewrite ?EJ, ?EK; reflexivity).
    { rewrite (rows_cons _ SJ), (rows_cons _ SK); auto. }
    rewrite E in E'. inversion E'; subst. auto.
  - destruct Hor as [Hc|Hns]; [congruence|].
    unfold jadd in E. rewrite EJ, EK in E. destruct (np_eq_all mk mj) as [b|] eqn:Eb; [|discriminate]. cbn [bind] in E.
    destruct b.
    + exfalso. apply Hns. clear E. unfold np_eq_all in Eb. rewrite SMJ, SMK in Eb.
      destruct (bshape2 (l :: s) (k :: s)) as [w|] eqn:Ew; [|discriminate]. cbn [bind] in Eb. injection Eb as Eb.
      rewrite forallb_forall in Eb. intros r t p Hr Ht Hp.
      assert (forall x m, bproj (m :: s) (x :: p) = (if Nat.eqb m 1 then 0%nat else x) :: p) as HB.
      { intros x m. unfold bproj. cbn [length]. rewrite (inb_length Hp), Nat.sub_diag. cbn [skipn map2].
        pose proof (bproj_same Hp) as Hq. unfold bproj in Hq. rewrite (inb_length Hp), Nat.sub_diag in Hq. cbn [skipn] in Hq.
        rewrite Hq. auto. }
      assert (forall m, bto (1%nat :: s) (m :: s)) as H1.
      { intros m. exists [], (m :: s). split; auto. constructor; auto. clear. induction s; constructor; auto. }
      destruct (bshape2_rows _ _ _ Ew) as [Hc|[->| ->]]; [congruence| |].
      * rewrite bshape2_bto_l in Ew by auto. injection Ew as <-. assert (t = 0%nat) by lia. subst t.
        specialize (Eb (r :: p)). rewrite !HB in Eb. cbn [Nat.eqb] in Eb. destruct (Nat.eqb_spec k 1); [lia|].
        symmetry. apply Z.eqb_eq, Eb. apply allix_spec, inb_cons; auto.
      * rewrite bshape2_bto_r in Ew by auto. injection Ew as <-. assert (r = 0%nat) by lia. subst r.
        specialize (Eb (t :: p)). rewrite !HB in Eb. cbn [Nat.eqb] in Eb. destruct (Nat.eqb_spec l 1); [lia|].
        symmetry. apply Z.eqb_eq, Eb. apply allix_spec, inb_cons; auto.
    + injection E as <-. split; [reflexivity|]. apply (@concat_jac_spec J K mj mk n s); auto.
Qed.
(* __add__ raises when the row counts differ and neither is one *)
Theorem jadd_sparse_raises J K mj mk n s : jwf n s J -> jwf n s K -> jidx J = Some mj -> jidx K = Some mk ->
  rows (jdata J) <> rows (jdata K) -> rows (jdata J) <> 1%nat -> rows (jdata K) <> 1%nat -> jadd J K = None.
Proof.
  intros (k & SJ & HJ') (l & SK & HK') EJ EK H1 H2 H3. rewrite EJ in HJ'. destruct HJ' as [SMJ _].
  rewrite EK in HK'. destruct HK' as [SMK _]. rewrite (rows_cons _ SJ), (rows_cons _ SK) in *.
  unfold jadd. rewrite EJ, EK. unfold np_eq_all. rewrite SMJ, SMK.
  destruct (bshape2 (l :: s) (k :: s)) as [w|] eqn:Ew; [|reflexivity].
  destruct (bshape2_rows _ _ _ Ew) as [Hc|[Hc|Hc]]; congruence.
Qed.
End J.
