(* ApiExact.v : what FwdJacobian.__add__, construct_jac_for and dense_array return in the cases where they are not the Jacobian entries (C06, C07, C08). *)
From Verif Require Export CompactFacts.
Set Implicit Arguments.
Local Open Scope cr_scope.

Section X.
Context {A : Type} {RA : CRing A}.
Add Ring r : rth.

Lemma bproj_rows s p x m : inb p s -> bproj (m :: s) (x :: p) = (if Nat.eqb m 1 then 0%nat else x) :: p.
Proof.
  intros Hp. unfold bproj. cbn [length]. rewrite (inb_length Hp), Nat.sub_diag. cbn [skipn map2].
  pose proof (bproj_same Hp) as Hq. unfold bproj in Hq. rewrite (inb_length Hp), Nat.sub_diag in Hq. cbn [skipn] in Hq. rewrite Hq. reflexivity.
Qed.
Lemma bto_one m s : bto (1%nat :: s) (m :: s).
Proof. exists [], (m :: s). split; auto. constructor; auto. induction s; constructor; auto. Qed.
(* one stored row on the left, k on the right, all indices equal: the single row is broadcast *)
Theorem jadd_one_l J K mj mk n s k : jwf n s J -> jwf n s K -> jidx J = Some mj -> jidx K = Some mk ->
  rows (jdata J) = 1%nat -> rows (jdata K) = k -> same_idx 1 k s mj mk ->
  exists R, jadd J K = Some R /\ weak R = true /\ jwf n s R /\ rows (jdata R) = k /\
    forall i p, inb p s -> jent R i p = sumn k (fun _ => jent J i p) + jent K i p.
Proof.
  intros (k1 & SJ & HJ) (k2 & SK & HK) EJ EK R1 R2 HS. rewrite (rows_cons _ SJ) in R1. rewrite (rows_cons _ SK) in R2. subst k1 k2.
  rewrite EJ in HJ. rewrite EK in HK. destruct HJ as [SMJ HJ], HK as [SMK HK].
  unfold jadd. rewrite EJ, EK. unfold np_eq_all. rewrite SMJ, SMK, (bshape2_bto_r (bto_one k s)). cbn [bind].
  assert (forallb (fun i => Z.eqb (at_ mk (bproj (k :: s) i)) (at_ mj (bproj (1%nat :: s) i))) (allix (k :: s)) = true) as ->.
  { apply forallb_forall. intros i Hi. apply allix_spec in Hi. destruct i as [|r p]; [inversion Hi|]. apply inb_cons in Hi. destruct Hi as [Hr Hp].
    rewrite !bproj_rows by auto. cbn [Nat.eqb]. apply Z.eqb_eq. symmetry. destruct (Nat.eqb_spec k 1); apply HS; auto; lia. }
  unfold bin. rewrite SJ, SK, (bshape2_bto_l (bto_one k s)). cbn [bind]. eexists. split; [reflexivity|]. split; [reflexivity|].
  assert (Hm : forall r p, (r < k)%nat -> inb p s -> at_ (broadcast_to (k :: s) mj) (r :: p) = at_ mj (0%nat :: p)).
  { intros r p Hr Hp. cbn [broadcast_to at_]. rewrite SMJ, bproj_rows by auto. reflexivity. }
  assert (Hd : forall r p, (r < k)%nat -> inb p s -> bproj (1%nat :: s) (r :: p) = 0%nat :: p /\ bproj (k :: s) (r :: p) = r :: p).
  { intros r p Hr Hp. rewrite !bproj_rows by auto. cbn [Nat.eqb]. split; [reflexivity|]. destruct (Nat.eqb_spec k 1); [f_equal; lia|reflexivity]. }
  split; [|split; [reflexivity|]].
  - exists k. split; [reflexivity|]. cbn [jidx]. split; [reflexivity|]. intros r p Hr Hp. rewrite Hm by auto. destruct (HJ 0%nat p ltac:(lia) Hp) as [B1 B2]. split; [exact B1|].
    intros Hneg. cbn [jdata at_]. destruct (Hd r p Hr Hp) as [-> ->]. destruct (HK r p Hr Hp) as [C1 C2].
    rewrite B2, C2; auto; [ring|]. rewrite <- (HS 0%nat r p) by (auto; lia). exact Hneg.
  - intros i p Hp. unfold jent. cbn [jidx jdata]. rewrite EJ, EK, (rows_cons _ SJ), (rows_cons _ SK). cbn [rows sh].
    cbn [rows sh hd]. assert (E1 : sumn k (fun _ => sumn 1 (fun r => if Z.eqb (at_ mj (r :: p)) (Z.of_nat i) then at_ (jdata J) (r :: p) else 0)) = sumn k (fun r => if Z.eqb (at_ mk (r :: p)) (Z.of_nat i) then at_ (jdata J) (0%nat :: p) else 0)).
    { apply sumn_ext. intros r Hr. rewrite <- (HS 0%nat r p) by (auto; lia). unfold sumn. cbn. destruct (Z.eqb _ _); ring. }
    rewrite E1.
    unfold sumn. rewrite <- sumL_add. apply sumL_ext. intros r Hr. apply in_seq in Hr. rewrite Hm by (auto; lia). cbn [at_]. destruct (Hd r p ltac:(lia) Hp) as [-> ->].
      rewrite (HS 0%nat r p) by (auto; lia). destruct (Z.eqb _ _); ring.
Qed.
(* the other way round *)
Theorem jadd_one_r J K mj mk n s k : jwf n s J -> jwf n s K -> jidx J = Some mj -> jidx K = Some mk ->
  rows (jdata J) = k -> rows (jdata K) = 1%nat -> same_idx k 1 s mj mk ->
  exists R, jadd J K = Some R /\ weak R = true /\ jwf n s R /\ rows (jdata R) = k /\
    forall i p, inb p s -> jent R i p = jent J i p + sumn k (fun _ => jent K i p).
Proof.
  intros (k1 & SJ & HJ) (k2 & SK & HK) EJ EK R1 R2 HS. rewrite (rows_cons _ SJ) in R1. rewrite (rows_cons _ SK) in R2. subst k1 k2.
  rewrite EJ in HJ. rewrite EK in HK. destruct HJ as [SMJ HJ], HK as [SMK HK].
  unfold jadd. rewrite EJ, EK. unfold np_eq_all. rewrite SMJ, SMK, (bshape2_bto_l (bto_one k s)). cbn [bind].
  assert (forallb (fun i => Z.eqb (at_ mk (bproj (1%nat :: s) i)) (at_ mj (bproj (k :: s) i))) (allix (k :: s)) = true) as ->.
  { apply forallb_forall. intros i Hi. apply allix_spec in Hi. destruct i as [|r p]; [inversion Hi|]. apply inb_cons in Hi. destruct Hi as [Hr Hp].
    rewrite !bproj_rows by auto. cbn [Nat.eqb]. apply Z.eqb_eq. symmetry. destruct (Nat.eqb_spec k 1); apply HS; auto; lia. }
  unfold bin. rewrite SJ, SK, (bshape2_bto_r (bto_one k s)). cbn [bind]. eexists. split; [reflexivity|]. split; [reflexivity|].
  assert (Hd : forall r p, (r < k)%nat -> inb p s -> bproj (1%nat :: s) (r :: p) = 0%nat :: p /\ bproj (k :: s) (r :: p) = r :: p).
  { intros r p Hr Hp. rewrite !bproj_rows by auto. cbn [Nat.eqb]. split; [reflexivity|]. destruct (Nat.eqb_spec k 1); [f_equal; lia|reflexivity]. }
  assert (Hm : forall r p, (r < k)%nat -> inb p s -> at_ (broadcast_to (k :: s) mj) (r :: p) = at_ mj (r :: p)).
  { intros r p Hr Hp. cbn [broadcast_to at_]. rewrite SMJ. destruct (Hd r p Hr Hp) as [_ ->]. reflexivity. }
  split; [|split; [reflexivity|]].
  - exists k. split; [reflexivity|]. cbn [jidx]. split; [reflexivity|]. intros r p Hr Hp. rewrite Hm by auto. destruct (HJ r p Hr Hp) as [B1 B2]. split; [exact B1|].
    intros Hneg. cbn [jdata at_]. destruct (Hd r p Hr Hp) as [-> ->]. destruct (HK 0%nat p ltac:(lia) Hp) as [C1 C2].
    rewrite B2, C2; auto; [ring|]. rewrite <- (HS r 0%nat p) by (auto; lia). exact Hneg.
  - intros i p Hp. unfold jent. cbn [jidx jdata]. rewrite EJ, EK, (rows_cons _ SJ), (rows_cons _ SK). cbn [rows sh hd].
    assert (E1 : sumn k (fun _ => sumn 1 (fun r => if Z.eqb (at_ mk (r :: p)) (Z.of_nat i) then at_ (jdata K) (r :: p) else 0)) = sumn k (fun r => if Z.eqb (at_ mj (r :: p)) (Z.of_nat i) then at_ (jdata K) (0%nat :: p) else 0)).
    { apply sumn_ext. intros r Hr. rewrite (HS r 0%nat p) by (auto; lia). unfold sumn. cbn. destruct (Z.eqb _ _); ring. }
    rewrite E1. unfold sumn. rewrite <- sumL_add. apply sumL_ext. intros r Hr. apply in_seq in Hr. rewrite Hm by (auto; lia). cbn [at_]. destruct (Hd r p ltac:(lia) Hp) as [-> ->].
    destruct (Z.eqb _ _); ring.
Qed.
(* two sparse Jacobians with different numbers of rows, one of which is 1, and indices that do not all coincide: concatenation *)
Theorem jadd_concat J K mj mk n s : jwf n s J -> jwf n s K -> jidx J = Some mj -> jidx K = Some mk ->
  rows (jdata J) = 1%nat \/ rows (jdata K) = 1%nat -> ~ same_idx (rows (jdata J)) (rows (jdata K)) s mj mk ->
  exists R, jadd J K = Some R /\ weak R = true /\ jwf n s R /\ rows (jdata R) = (rows (jdata J) + rows (jdata K))%nat /\
    forall i p, inb p s -> jent R i p = jent J i p + jent K i p.
Proof.
  intros HJ HK EJ EK H1 HS. pose proof HJ as (k & SJ & HJ'). rewrite EJ in HJ'. destruct HJ' as [SMJ _]. pose proof HK as (l & SK & HK'). rewrite EK in HK'. destruct HK' as [SMK _].
  rewrite (rows_cons _ SJ), (rows_cons _ SK) in *.
  assert (Hb : exists w, bshape2 (l :: s) (k :: s) = Some w /\ (k = 1%nat -> w = l :: s) /\ (l = 1%nat -> w = k :: s)).
  { destruct H1 as [-> | ->]; [exists (l :: s)|exists (k :: s)]; (split; [first [apply bshape2_bto_r, bto_one|apply bshape2_bto_l, bto_one]|]); split; intros; subst; reflexivity. }
  destruct Hb as (w & Hw & Hk & Hl).
  assert (E : np_eq_all mk mj = Some false).
  { unfold np_eq_all. rewrite SMJ, SMK, Hw. cbn [bind]. f_equal. apply Bool.not_true_is_false. intros E. apply HS. rewrite forallb_forall in E. intros r t p Hr Ht Hp.
    destruct H1 as [E1|E1].
    - subst k. rewrite (Hk eq_refl) in E. specialize (E (t :: p) (proj2 (allix_spec _ _) (proj2 (inb_cons _ _ _ _) (conj Ht Hp)))). rewrite !bproj_rows in E by auto. cbn [Nat.eqb] in E.
      replace r with 0%nat by lia. apply Z.eqb_eq in E. symmetry. rewrite <- E. destruct (Nat.eqb_spec l 1); [do 2 f_equal; lia|reflexivity].
    - subst l. rewrite (Hl eq_refl) in E. specialize (E (r :: p) (proj2 (allix_spec _ _) (proj2 (inb_cons _ _ _ _) (conj Hr Hp)))). rewrite !bproj_rows in E by auto. cbn [Nat.eqb] in E.
      replace t with 0%nat by lia. apply Z.eqb_eq in E. rewrite E. destruct (Nat.eqb_spec k 1); [do 2 f_equal; lia|reflexivity]. }
  unfold jadd. rewrite EJ, EK, E. cbn [bind]. eexists. split; [reflexivity|]. split; [reflexivity|]. destruct (@concat_jac_spec A RA J K mj mk n s HJ HK EJ EK) as [W1 W2]. split; [exact W1|]. split; [|exact W2].
  cbn [jdata]. rewrite (rows_cons _ (concat2_sh 0 _ _ SJ SK)). reflexivity.
Qed.

(* ---- construct_jac_for ---- *)
(* dense: request z reads row z, negative requests count from the end, everything is clamped into the stored rows *)
Theorem construct_dense_value J n s o K : jwf n s J -> weak J = false -> sh o = [K] -> (0 < K)%nat -> (0 < rows (jdata J))%nat ->
  exists res, construct_jac_for J (Some o) = Some res /\ sh res = K :: s /\ let k := Z.of_nat (rows (jdata J)) in
    forall q p, (q < K)%nat -> inb p s -> let z := at_ o [q] in
      ((0 <= z)%Z -> at_ res (q :: p) = jent J (Z.to_nat (Z.min z (k - 1))) p) /\ ((z < 0)%Z -> at_ res (q :: p) = jent J (Z.to_nat (Z.max 0 (k + z))) p).
Proof.
  intros (k & Hk & _) Hw Ho HK Hr. unfold weak in Hw. destruct (jidx J) as [m|] eqn:E; [discriminate|]. rewrite (rows_cons _ Hk) in *.
  unfold construct_jac_for, construct_jac_for_idx. rewrite (rows_cons _ Ho), E. destruct (Nat.eqb_spec K 0); [lia|].
  eexists. split; [reflexivity|]. split; [cbn; rewrite Ho, Hk; reflexivity|]. cbv zeta. intros q p Hq Hp.
  unfold fancy0, ndim. cbn [at_]. rewrite Ho. cbn [length firstn skipn]. rewrite (rows_cons _ Hk). unfold jent. rewrite E, (rows_cons _ Hk). unfold wrap_ix.
  split; intros Hz.
  - destruct (Z.ltb_spec (at_ o [q]) 0); [lia|]. destruct (Nat.ltb_spec (Z.to_nat (Z.min (at_ o [q]) (Z.of_nat k - 1))) k); [|lia]. do 2 f_equal. lia.
  - destruct (Z.ltb_spec (at_ o [q]) 0); [|lia]. destruct (Nat.ltb_spec (Z.to_nat (Z.max 0 (Z.of_nat k + at_ o [q]))) k); [|lia]. do 2 f_equal. lia.
Qed.
Lemma zpos_first l z q d : (q < length l)%nat -> nth q l d = z -> zpos z l = q <-> (forall r, (r < q)%nat -> nth r l d <> z).
Proof.
  revert q. induction l as [|y l IH]; intros q Hq Hn; cbn [length] in Hq; [lia|]. cbn [zpos]. destruct (Z.eqb_spec y z) as [->|Hy].
  - split; [intros <- r Hr; lia|]. intros H. destruct q; [reflexivity|]. exfalso. exact (H 0%nat ltac:(lia) eq_refl).
  - destruct q as [|q]; [cbn in Hn; congruence|]. cbn [nth] in Hn. split.
    + intros H [|r] Hr; [exact Hy|]. cbn [nth]. apply (proj1 (IH q ltac:(lia) Hn)); lia.
    + intros H. f_equal. apply (proj2 (IH q ltac:(lia) Hn)). intros r Hr. apply (H (S r)). lia.
Qed.
(* sparse: the first request of an input gets its row, repeated and negative requests get zeros *)
Theorem construct_sparse_value J n s o K t : jwf n s J -> weak J = true -> sh o = K :: t -> bto t s -> (0 < K)%nat ->
  exists res, construct_jac_for J (Some o) = Some res /\ sh res = K :: s /\
    forall q p, (q < K)%nat -> inb p s -> let z q := at_ o (q :: bproj t p) in
      ((0 <= z q)%Z -> (forall r, (r < q)%nat -> z r <> z q) -> at_ res (q :: p) = jent J (Z.to_nat (z q)) p) /\
      ((z q < 0)%Z \/ (exists r, (r < q)%nat /\ z r = z q) -> at_ res (q :: p) = 0).
Proof.
  intros Hwf Hw Ho Ht HK. unfold weak in Hw. destruct (jidx J) as [m|] eqn:E; [|discriminate]. pose proof Hwf as (k & Hk & _).
  destruct (construct_sparse_spec o Hwf E Hk Ho Ht HK) as (res & Er & Hs & Hat). exists res. split; [exact Er|]. split; [exact Hs|]. intros q p Hq Hp z. rewrite Hat by auto. cbn zeta. fold (z q).
  assert (HZ : zpos (z q) (olist o t K p) = q <-> (forall r, (r < q)%nat -> z r <> z q)).
  { rewrite (@zpos_first (olist o t K p) (z q) q (-1)%Z); [|rewrite olist_length; auto|rewrite olist_nth by auto; reflexivity]. split; intros H r Hr; specialize (H r Hr); rewrite olist_nth in * by lia; exact H. }
  split.
  - intros H0 Hf. apply HZ in Hf. rewrite Hf, Nat.eqb_refl. destruct (Z.leb_spec 0 (z q)); [reflexivity|lia].
  - intros [Hn|(r & Hr & Hz)]; [destruct (Z.leb_spec 0 (z q)); [lia|reflexivity]|]. destruct (Nat.eqb_spec (zpos (z q) (olist o t K p)) q) as [Hc|_]; [|rewrite andb_false_r; reflexivity].
    exfalso. apply (proj1 HZ Hc r Hr Hz).
Qed.

(* ---- dense_array ---- *)
(* a sparse Jacobian: one row for every input up to the largest stored index (one zero row if nothing is stored) *)
Theorem dense_array_rows J m n s D : jwf0 n s J -> jidx J = Some m -> (exists i, inb i (sh m)) -> dense_array J = Some D ->
  exists mx i, inb i (sh m) /\ at_ m i = mx /\ (forall j, inb j (sh m) -> (at_ m j <= mx)%Z) /\ sh D = Z.to_nat (Z.max 1 (mx + 1)) :: s.
Proof.
  intros HJ EJ (i0 & Hi0) HD. pose proof HJ as (k & Hk & HM). rewrite EJ in HM. destruct HM as [Sm HM].
  unfold dense_array in HD. rewrite EJ in HD. destruct (max_n J) as [mx|] eqn:Emx; [|discriminate]. cbn [bind] in HD.
  unfold max_n in Emx. rewrite EJ in Emx. destruct (flat m) as [|z l] eqn:Ef; [discriminate|]. injection Emx as Emx.
  pose proof (fold_max_in l z) as Hin. rewrite Emx, <- Ef in Hin. unfold flat in Hin. apply in_map_iff in Hin. destruct Hin as (i & Hi & Hi2). apply allix_spec in Hi2.
  assert (HMX : forall j, inb j (sh m) -> (at_ m j <= mx)%Z).
  { intros j Hj. destruct (fold_max_ge l z) as [H1 H2]. rewrite Emx in H1, H2. assert (Hf : In (at_ m j) (flat m)) by (unfold flat; apply in_map, allix_spec; exact Hj). rewrite Ef in Hf. destruct Hf as [<-|Hf]; [exact H1|apply H2; exact Hf]. }
  exists mx, i. split; [exact Hi2|]. split; [exact Hi|]. split; [exact HMX|].
  assert (Hge : (-1 <= mx)%Z). { rewrite <- Hi. rewrite Sm in Hi2. destruct i as [|r p]; [inversion Hi2|]. apply inb_cons in Hi2. destruct Hi2 as [Hr Hp]. destruct (HM r p Hr Hp) as [H1 H2]. lia. }
  unfold construct_jac_for_idx in HD. cbn [rows arange_ext sh hd] in HD. destruct (Nat.eqb_spec (Z.to_nat (mx + 1)) 0) as [H0|H0].
  - injection HD as <-. cbn [sh]. unfold data_shape. rewrite Hk. cbn [tl]. f_equal. lia.
  - rewrite EJ in HD. pose proof (@dense_array_spec0 A RA J n s HJ) as HS.
    destruct (@construct_sparse_gen A RA J m (arange_ext (Z.to_nat (mx + 1)) (data_shape J)) n k s (Z.to_nat (mx + 1)) (map (fun _ => 1%nat) s) HJ EJ Hk) as (res & E1 & E2 & _).
    + unfold arange_ext, data_shape. rewrite Hk. reflexivity.
    + clear. exists [], s. split; [reflexivity|]. induction s; constructor; auto.
    + lia.
    + unfold construct_jac_for_idx in E1. cbn [rows arange_ext sh hd] in E1. destruct (Nat.eqb_spec (Z.to_nat (mx + 1)) 0); [lia|]. rewrite EJ in E1.
      assert (D = res) as -> by congruence. rewrite E2. f_equal. lia.
Qed.
End X.
