(* HessIdx.v : the index sets of hessian.py and the Jacobian rows they select. *)
From Verif Require Export HessBatch.
From Coq Require Import Sorted.
Set Implicit Arguments.

(* ---------- slicing the index array ---------- *)
Lemma fixd_ext {X} kp v w (x : nd X) : (forall d, d < ndim x -> ~ In d kp -> nth d v 0 = nth d w 0) -> eql (fixd kp v x) (fixd kp w x).
Proof.
  intros H. split; [reflexivity|]. intros i Hi. cbn. f_equal. apply map_ext_in. intros d Hd. apply in_seq in Hd.
  destruct (mem d kp) eqn:E; auto. apply H; [lia|]. apply mem_nIn; auto.
Qed.
Lemma compact_loop_sorted ds : forall a b c, compact_loop ds a = (b, c) -> StronglySorted lt ds -> StronglySorted lt c.
Proof.
  induction ds as [|d ds IH]; intros a b c H Hs; cbn in H; [injection H as <- <-; constructor|].
  inversion Hs as [|? ? Hs' Hd]; subst. destruct (const_along d a).
  - destruct (compact_loop ds (take0 d a)) as [b' c'] eqn:E. injection H as <- <-. constructor; [eapply IH; eauto|].
    apply compact_loop_spec in E. destruct E as [Hi _]. apply Forall_forall. intros x Hx. rewrite Forall_forall in Hd. apply Hd, Hi; auto.
  - eapply IH; eauto.
Qed.
Lemma seq_sorted n : forall i, StronglySorted lt (seq i n).
Proof. induction n as [|n IH]; intros i; cbn; constructor; auto. apply Forall_forall. intros x Hx. apply in_seq in Hx. lia. Qed.
Lemma filter_all {X} (P : X -> bool) l : (forall x, In x l -> P x = true) -> filter P l = l.
Proof. induction l as [|x l IH]; cbn; intros H; auto. rewrite H by auto. rewrite IH; auto. Qed.
Lemma take_all_spec {X} (o : nd X) c : StronglySorted lt c -> (forall d, In d c -> d < ndim o) ->
  eql (take_all c o) (fixd (filter (fun d => negb (mem d c)) (seq 0 (ndim o))) (repeat 0 (ndim o)) o).
Proof.
  intros Hs Hb. induction c as [|d c IH].
  - cbn. rewrite filter_all by auto. split.
    + cbn. unfold permute, ndim. symmetry. apply map_nth_seq.
    + intros i Hi. cbn. f_equal. symmetry. unfold ndim in *. rewrite <- Hi. etransitivity; [|apply (map_nth_seq i 0)].
      apply map_ext_in. intros d Hd. assert (mem d (seq 0 (length i)) = true) as -> by (apply mem_In; auto).
      f_equal. apply in_seq in Hd. assert (E : nth d (seq 0 (length i)) 0 = d) by (rewrite seq_nth by lia; reflexivity).
      rewrite <- E at 1. apply pos_nth; [apply seq_NoDup|rewrite seq_length; lia].
  - inversion Hs as [|? ? Hs' Hd]; subst. rewrite Forall_forall in Hd. cbn [take_all].
    assert (Hdo : d < ndim o) by (apply Hb; left; auto).
    assert (Eseq : seq 0 (ndim o) = seq 0 d ++ d :: seq (S d) (ndim o - S d)).
    { replace (ndim o) with (d + S (ndim o - S d)) at 1 by lia. rewrite seq_app. reflexivity. }
    assert (E1 : filter (fun x => negb (mem x c)) (seq 0 (ndim o)) = seq 0 d ++ d :: filter (fun x => negb (mem x c)) (seq (S d) (ndim o - S d))).
    { rewrite Eseq, filter_app. f_equal.
      - apply filter_all. intros x Hx. apply in_seq in Hx. apply negb_true_iff, mem_nIn. intros Hc. apply Hd in Hc. lia.
      - cbn. assert (mem d c = false) as ->; [|reflexivity]. apply mem_nIn. intros Hc. apply Hd in Hc. lia. }
    assert (E2 : filter (fun x => negb (mem x (d :: c))) (seq 0 (ndim o)) = seq 0 d ++ filter (fun x => negb (mem x c)) (seq (S d) (ndim o - S d))).
    { rewrite Eseq, filter_app. f_equal.
      - apply filter_all. intros x Hx. apply in_seq in Hx. apply negb_true_iff, mem_nIn. intros [Hc|Hc]; [lia|]. apply Hd in Hc. lia.
      - cbn [filter]. assert (mem d (d :: c) = true) as -> by (apply mem_In; left; auto). cbn [negb]. apply filter_ext_in. intros x Hx. apply in_seq in Hx.
        f_equal. unfold mem. cbn [existsb]. destruct (Nat.eqb_spec x d); [lia|reflexivity]. }
    rewrite E2. specialize (IH Hs' (fun x Hx => Hb x (or_intror Hx))). rewrite E1 in IH.
    eapply eql_trans; [apply take_eql; [|exact IH]|].
    + destruct IH as [IH _]. unfold ndim. rewrite IH. cbn. rewrite permute_length, app_length, seq_length. cbn. lia.
    + pose proof (@take_fixd _ (seq 0 d) d (filter (fun x => negb (mem x c)) (seq (S d) (ndim o - S d))) 0 (repeat 0 (ndim o)) o) as HT.
      rewrite seq_length in HT. eapply eql_trans; [apply HT|].
      * rewrite <- E1. apply NoDup_filter, seq_NoDup.
      * rewrite <- E1. intros x Hx. apply filter_In in Hx. destruct Hx as [Hx _]. apply in_seq in Hx. lia.
      * apply repeat_length.
      * apply fixd_ext. intros x Hx _. rewrite nth_upd, nth_repeat. destruct (_ && _); reflexivity.
Qed.
Lemma slice_idx_loop {X} (o : nd X) c : forall m i bb v (y : nd X), S i + m = ndim o -> length bb = m -> length v = ndim o ->
  eql y (fixd (0 :: filter (fun d => negb (mem d c)) (seq (S i) m)) v o) ->
  exists v', length v' = ndim o /\
    eql (slice_seq (map (fun d => if mem (S d) c then None else Some 1) (seq i m)) bb y) (fixd [0] v' o) /\
    forall d, d < ndim o -> nth d v' 0 = if (S i <=? d) && negb (mem d c) then nth (d - S i) bb 0 else nth d v 0.
Proof.
  induction m as [|m IH]; intros i bb v y Hm Hl Hv Hy.
  - exists v. split; auto. split; [destruct bb; exact Hy|]. intros d Hd. destruct (Nat.leb_spec (S i) d); [lia|]. reflexivity.
  - destruct bb as [|j bb]; [discriminate|]. cbn [seq map filter] in *. destruct (mem (S i) c) eqn:E; cbn [negb] in *; cbn [slice_seq].
    + destruct (IH (S i) bb v y) as (v' & H1 & H2 & H3); auto; try (cbn in Hl; lia).
      exists v'. split; auto. split; auto. intros d Hd. rewrite H3 by auto. destruct (Nat.eq_dec d (S i)) as [->|Hne].
      * rewrite E. cbn [negb]. rewrite !andb_false_r. reflexivity.
      * destruct (Nat.leb_spec (S (S i)) d), (Nat.leb_spec (S i) d); try lia; auto. cbn [andb]. destruct (negb (mem d c)); auto.
        replace (d - S i) with (S (d - S (S i))) by lia. reflexivity.
    + assert (Hnd : NoDup ([0] ++ S i :: filter (fun d => negb (mem d c)) (seq (S (S i)) m))).
      { cbn. constructor; [|constructor; [|apply NoDup_filter, seq_NoDup]].
        - intros [H|H]; [lia|]. apply filter_In in H. destruct H as [H _]. apply in_seq in H. lia.
        - intros H. apply filter_In in H. destruct H as [H _]. apply in_seq in H. lia. }
      destruct (IH (S i) bb (upd (S i) j v) (take 1 j y)) as (v' & H1 & H2 & H3); auto; try (cbn in Hl; lia).
      * rewrite upd_length; auto.
      * eapply eql_trans; [apply take_eql; [|exact Hy]|].
        -- destruct Hy as [Hy _]. unfold ndim. rewrite Hy. cbn. lia.
        -- pose proof (@take_fixd _ [0] (S i) (filter (fun d => negb (mem d c)) (seq (S (S i)) m)) j v o Hnd) as HT. apply HT; auto.
           intros d Hd. cbn in Hd. destruct Hd as [Hd|[Hd|Hd]]; [lia|lia|]. apply filter_In in Hd. destruct Hd as [Hd _]. apply in_seq in Hd. lia.
      * exists v'. split; auto. split; auto. intros d Hd. rewrite H3 by auto. rewrite nth_upd. destruct (Nat.eq_dec d (S i)) as [->|Hne].
        -- destruct (Nat.leb_spec (S (S i)) (S i)); [lia|]. rewrite Nat.leb_refl, E, Nat.eqb_refl. cbn [andb negb].
           destruct (Nat.ltb_spec (S i) (length v)); [|lia]. rewrite Nat.sub_diag. reflexivity.
        -- destruct (Nat.eqb_spec d (S i)); [lia|]. cbn [andb]. destruct (Nat.leb_spec (S (S i)) d), (Nat.leb_spec (S i) d); try lia; auto. cbn [andb].
           destruct (negb (mem d c)); auto. replace (d - S i) with (S (d - S (S i))) by lia. reflexivity.
Qed.
Lemma slice_idx_spec (idx : nd Z) mx kb b : sh idx = mx :: kb -> inb b kb ->
  sh (slice_idx (length kb) b idx) = [mx] /\ forall r, r < mx -> at_ (slice_idx (length kb) b idx) [r] = at_ idx (r :: b).
Proof.
  intros Hs Hb. unfold slice_idx. destruct (compact idx) as [o c] eqn:E. unfold compact in E.
  pose proof (@compact_loop_sorted _ _ _ _ E (seq_sorted _ _)) as Hsrt. apply compact_loop_spec in E. destruct E as (Hin & _ & Hsh & Ho & Hi).
  assert (Hno : ndim o = S (length kb)) by (unfold ndim; rewrite Hsh, map_length, seq_length, Hs; reflexivity).
  assert (Hc : forall d, In d c -> 1 <= d < S (length kb)).
  { intros d Hd. apply Hin in Hd. apply in_seq in Hd. unfold ndim in Hd. rewrite Hs in Hd. cbn in Hd. lia. }
  destruct (@slice_idx_loop _ o c (length kb) 0 b (repeat 0 (ndim o)) (take_all c o)) as (v' & H1 & H2 & H3).
  - lia.
  - apply inb_length; auto.
  - apply repeat_length.
  - pose proof (@take_all_spec _ o c Hsrt) as HT. rewrite Hno in *. cbn [seq filter] in HT.
    assert (mem 0 c = false) as E0 by (apply mem_nIn; intros H; apply Hc in H; lia). rewrite E0 in HT. cbn [negb] in HT. apply HT.
    intros d Hd. apply Hc in Hd. lia.
  - destruct H2 as [S1 S2]. split.
    + rewrite S1. cbn. rewrite Hsh. rewrite Hs. cbn [length seq map nth]. assert (existsb (Nat.eqb 0) c = false) as ->; [|reflexivity].
      apply existsb_eqb_nIn. intros H. apply Hc in H. lia.
    + intros r Hr. rewrite S2; [|unfold ndim; rewrite S1; reflexivity]. cbn [fixd at_]. rewrite Ho.
      rewrite (Hi (r :: b)) by (rewrite Hs; constructor; auto).
      assert (Hlb : length b = length kb) by (apply inb_length; auto).
      f_equal. unfold zeros. rewrite map_length, seq_length, Hno. cbn [length]. rewrite Hlb. apply map_ext_in. intros d Hd. apply in_seq in Hd.
      destruct (existsb (Nat.eqb d) c) eqn:Ed; auto.
      rewrite (@nth_map_in _ _ (fun d => if mem d [0] then nth (pos d [0]) [r] 0 else nth d v' 0) _ _ 0) by (rewrite seq_length; lia). rewrite seq_nth by lia. cbn [Nat.add].
      destruct d as [|d]; [reflexivity|]. change (mem (S d) [0]) with false. cbn iota. rewrite H3 by lia.
      change (mem (S d) c) with (existsb (Nat.eqb (S d)) c). rewrite Ed. cbn [Nat.leb andb negb]. rewrite Nat.sub_succ, Nat.sub_0_r. reflexivity.
Qed.

Section Idx.
Context {A : Type} {RA : CRing A}.
Add Ring Aring_Idx : (@rth A RA).
Open Scope cr_scope.
Notation nA := (nth_map_in).

(* ---------- reduced Jacobians ---------- *)
Lemma red_none n (args : list (lapl A)) g2 : (0 < n)%nat -> args <> [] -> (forall a, In a args -> awf n a) ->
  get_reduced_jacobians (map (@ljac A) args) None = Some g2 ->
  exists R, (R <= n)%nat /\ red_ok (map (@sh A) (xs_of args)) R (fun a r q => jent (ljac (nth a args la0)) r q) g2 /\
    forall a i q, (a < length args)%nat -> inb q (sh (lx (nth a args la0))) -> (R <= i)%nat -> jent (ljac (nth a args la0)) i q = 0.
Proof.
  intros Hn Hne Hw H. unfold get_reduced_jacobians in H. rewrite map_map in H.
  destruct (sequence (map (fun x => dense_array (ljac x)) args)) as [dj|] eqn:E; [|discriminate]. cbn [bind] in H. injection H as <-.
  destruct (@ext_spec _ _ n args dj Hn Hne Hw E) as (M & Hl & HM & HMn & HA). exists M. split; [exact HMn|]. split.
  - split; [rewrite map_length, Hl, map_length, xs_length; reflexivity|]. rewrite map_length, xs_length. intros a Ha.
    destruct (HA a Ha) as (Hs & Hv & _). rewrite shapes_nth by (rewrite xs_length; auto). rewrite xs_nth by auto.
    rewrite nth_map_in with (dx := nd0) by lia. unfold rows. rewrite Hs. cbn [hd tl]. split; [reflexivity|].
    intros r q Hr Hq. rewrite (@reshape2_at _ _ M _ r _ Hs Hr); [|apply ravel_lt; auto]. rewrite unravel_ravel by auto. apply Hv; auto.
  - intros a i q Ha Hq Hi. apply HA; auto.
Qed.
(* the value of row r of a reduced Jacobian for the requested index z *)
Definition rowval (zs : list Z) (J : jac A) (r : nat) (q : ix) : A :=
  let z := nth r zs (-1)%Z in
  if weak J then (if (0 <=? z)%Z && Nat.eqb (zpos z zs) r then jent J (Z.to_nat z) q else 0)
  else at_ (jdata J) (wrap_ix (rows (jdata J)) z :: q).
Lemma red_some n (args : list (lapl A)) (o : nd Z) R g2 : (forall a, In a args -> awf n a) -> sh o = [R] ->
  get_reduced_jacobians (map (@ljac A) args) (Some o) = Some g2 ->
  (0 < R)%nat /\ red_ok (map (@sh A) (xs_of args)) R (fun a r q => rowval (map (fun r => at_ o [r]) (seq 0 R)) (ljac (nth a args la0)) r q) g2.
Proof.
  intros Hw Ho H. unfold get_reduced_jacobians in H. rewrite (rows_cons _ Ho) in H. destruct (Nat.eqb_spec R 0); [discriminate|]. split; [lia|].
  rewrite map_map in H. destruct (sequence (map (fun x => construct_jac_for_idx (ljac x) o) args)) as [dj|] eqn:E; [|discriminate]. cbn [bind] in H. injection H as <-.
  destruct (sequence_spec _ E) as [Hl Hq]. rewrite map_length in Hl. split; [rewrite map_length, Hl, map_length, xs_length; reflexivity|].
  rewrite map_length, xs_length. intros a Ha. specialize (Hq a nd0 None ltac:(rewrite map_length; auto)). rewrite nth_map_in with (dx := la0) in Hq by auto.
  rewrite shapes_nth by (rewrite xs_length; auto). rewrite xs_nth by auto. rewrite nth_map_in with (dx := nd0) by lia.
  set (J := ljac (nth a args la0)) in *. set (s := sh (lx (nth a args la0))) in *.
  destruct (Hw (nth a args la0)) as [HJ _]; [apply nth_In; auto|]. fold J s in HJ. pose proof HJ as (k & Hk & Hm).
  assert (HD : sh (nth a dj nd0) = R :: s /\ forall r q, (r < R)%nat -> inb q s -> at_ (nth a dj nd0) (r :: q) = rowval (map (fun r => at_ o [r]) (seq 0 R)) J r q).
  { unfold rowval, weak. destruct (jidx J) as [m|] eqn:Em.
    - destruct (@construct_sparse_spec _ _ J m o n k s R [] HJ Em Hk Ho (bto_nil s)) as (res & E1 & E2 & E3); [lia|].
      rewrite Hq in E1. injection E1 as <-. split; [exact E2|]. intros r q Hr Hqq. rewrite E3 by auto.
      assert (Hb : bproj [] q = []) by (unfold bproj; reflexivity). rewrite Hb.
      rewrite nth_map_in with (dx := 0%nat) by (rewrite seq_length; auto). rewrite seq_nth by auto. cbn [Nat.add].
      unfold olist. rewrite Hb. reflexivity.
    - unfold construct_jac_for_idx in Hq. rewrite (rows_cons _ Ho), Em in Hq. destruct (Nat.eqb_spec R 0); [lia|]. injection Hq as <-. split.
      + cbn. rewrite Ho, Hk. reflexivity.
      + intros r q Hr Hqq. cbn. unfold ndim. rewrite Ho. cbn [length firstn skipn].
        rewrite nth_map_in with (dx := 0%nat) by (rewrite seq_length; auto). rewrite seq_nth by auto. reflexivity. }
  destruct HD as [HD1 HD2]. rewrite HD1. cbn [tl]. try rewrite !(rows_cons _ Ho). split; [reflexivity|].
  intros r q Hr Hqq. rewrite (@reshape2_at _ _ R _ r _ HD1 Hr); [|apply ravel_lt; auto]. rewrite unravel_ravel by auto. apply HD2; auto.
Qed.

(* ---------- find_out_idx ---------- *)
Lemma union_fold ls : forall l z, In z (fold_left union1d ls l) <-> In z l \/ exists m, In m ls /\ In z m.
Proof.
  induction ls as [|m ls IH]; intros l z; cbn [fold_left]; [firstorder|]. rewrite IH. unfold union1d at 1. rewrite uniqZ_In, in_app_iff. split.
  - intros [[H|H]|(x & H1 & H2)]; [auto|right; exists m; cbn; auto|right; exists x; cbn; auto].
  - intros [H|(x & [->|H1] & H2)]; [auto|auto|right; exists x; auto].
Qed.
Lemma union_nodup ls : forall l, NoDup l -> NoDup (fold_left union1d ls l).
Proof. induction ls as [|m ls IH]; intros l H; cbn; auto. apply IH. apply uniqZ_NoDup. Qed.
Lemma inter_fold ls : forall l z, In z (fold_left intersect1d ls l) <-> In z l /\ forall m, In m ls -> In z m.
Proof.
  induction ls as [|m ls IH]; intros l z; cbn [fold_left]; [cbn; firstorder|]. rewrite IH. unfold intersect1d at 1. rewrite filter_In, uniqZ_In, zmem_In. cbn. split.
  - intros [[H1 H2] H3]. split; auto. intros x [->|Hx]; auto.
  - intros [H1 H2]. split; [split; auto|]. intros x Hx. auto.
Qed.
Lemma inter_nodup ls : forall l, NoDup l -> NoDup (fold_left intersect1d ls l).
Proof. induction ls as [|m ls IH]; intros l H; cbn; auto. apply IH. apply NoDup_filter, uniqZ_NoDup. Qed.
Lemma merge_lists_spec inter ls : ls <> [] -> (forall l, In l ls -> NoDup l) -> NoDup (merge_lists inter ls) /\
  forall z, In z (merge_lists inter ls) <-> if inter : bool then forall l, In l ls -> In z l else exists l, In l ls /\ In z l.
Proof.
  intros Hne Hnd. destruct ls as [|l ls]; [congruence|]. cbn [merge_lists]. destruct inter.
  - split; [apply inter_nodup, Hnd; cbn; auto|]. intros z. rewrite inter_fold. cbn. split; [intros [H1 H2] m [->|Hm]; auto|]. intros H. split; auto.
  - split; [apply union_nodup, Hnd; cbn; auto|]. intros z. rewrite union_fold. cbn. split.
    + intros [H|(m & H1 & H2)]; [exists l; auto|exists m; auto].
    + intros (m & [->|H1] & H2); [auto|right; exists m; auto].
Qed.
(* index z occurs in batch element b of the dependencies of a *)
Definition mval (a : lapl A) (ax : list nat) (b : ix) (z : Z) : Prop :=
  let s := sh (lx a) in exists r j, (r < rows (jdata (ljac a)))%nat /\ inb j (permute (sax (length s) ax) s) /\ at_ (mask (ljac a)) (r :: wv s ax b j) = z.
Lemma mask_sh n s (J : jac A) : jwf n s J -> sh (mask J) = sh (jdata J).
Proof. intros (k & Hk & Hm). unfold mask. destruct (jidx J); [|reflexivity]. destruct Hm as [-> _]. auto. Qed.
Lemma mask_range n s (J : jac A) r p : jwf n s J -> (r < rows (jdata J))%nat -> inb p s -> (-1 <= at_ (mask J) (r :: p) < Z.of_nat n)%Z.
Proof.
  intros (k & Hk & Hm) Hr Hp. rewrite (rows_cons _ Hk) in Hr. unfold mask. destruct (jidx J) as [m|].
  - destruct Hm as [_ Hm]. apply Hm; auto.
  - cbn. lia.
Qed.
Lemma mask_unique n s (J : jac A) r p : jwf n s J -> (r < rows (jdata J))%nat -> inb p s -> In (at_ (mask J) (r :: p)) (unique_idx J).
Proof.
  intros (k & Hk & Hm) Hr Hp. rewrite (rows_cons _ Hk) in Hr. unfold mask, unique_idx. destruct (jidx J) as [m|].
  - destruct Hm as [Hm _]. apply uniqZ_In, flat_In. exists (r :: p). rewrite Hm. split; [constructor; auto|reflexivity].
  - cbn. apply in_map. apply in_seq. rewrite (rows_cons _ Hk). lia.
Qed.
Lemma mval_jent n a ax b i j : awf n a -> inb j (permute (sax (length (sh (lx a))) ax) (sh (lx a))) ->
  ~ mval a ax b (Z.of_nat i) -> jent (ljac a) i (wv (sh (lx a)) ax b j) = 0.
Proof.
  intros [(k & Hk & Hm) _] Hj Hn. unfold jent, mval, mask in *. destruct (jidx (ljac a)) as [m|].
  - apply sumn_zero. intros r Hr. destruct (Z.eqb_spec (at_ m (r :: wv (sh (lx a)) ax b j)) (Z.of_nat i)) as [E|E]; [|reflexivity].
    exfalso. apply Hn. exists r, j. auto.
  - destruct (Nat.ltb_spec i (rows (jdata (ljac a)))); [|reflexivity]. exfalso. apply Hn. exists i, j. auto.
Qed.
Lemma remove_fill_uniq N (l : list Z) : (length (uniqZ l) <= N)%nat ->
  NoDup (remove_fill (uniq_size N (-1)%Z l)) /\ forall z, In z (remove_fill (uniq_size N (-1)%Z l)) <-> (0 <= z)%Z /\ In z l.
Proof.
  intros H. unfold remove_fill, uniq_size. rewrite firstn_all2 by auto. rewrite filter_app.
  assert (filter (fun z => (0 <=? z)%Z) (repeat (-1)%Z (N - length (uniqZ l))) = []) as ->.
  { induction (N - length (uniqZ l))%nat as [|k IH]; cbn; auto. }
  rewrite app_nil_r. split; [apply NoDup_filter, uniqZ_NoDup|]. intros z. rewrite filter_In, uniqZ_In, Z.leb_le. tauto.
Qed.
Definition mleaves (args : list (lapl A)) (axs : list (list nat)) : list (shape * list nat) :=
  combine (map (@sh Z) (map (fun a => mask (ljac a)) args)) (map jac_axes axs).
Definition out_set (inter : bool) (args : list (lapl A)) (axs : list (list nat)) (b : ix) (z : Z) : Prop :=
  (0 <= z)%Z /\ if inter then forall a, (a < length args)%nat -> mval (nth a args la0) (nth a axs []) b z
                else exists a, (a < length args)%nat /\ mval (nth a args la0) (nth a axs []) b z.
Lemma maxl_le l N : (forall x, In x l -> (x <= N)%nat) -> (maxl l <= N)%nat.
Proof. induction l as [|x l IH]; cbn; intros H; [lia|]. apply Nat.max_lub; auto. Qed.
Lemma combine_map {X Y Z W} (f : X -> Y) (g : Z -> W) l m : combine (map f l) (map g m) = map (fun p => (f (fst p), g (snd p))) (combine l m).
Proof. revert m. induction l as [|x l IH]; intros [|y m]; cbn; auto. rewrite IH. reflexivity. Qed.
Theorem find_out_idx_spec n args axs fl th o dense : args <> [] -> (forall a, In a args -> awf n a) -> axes_ok axs (xs_of args) ->
  find_out_idx args axs fl th = Some (Some o, dense) ->
  any_weak args = true /\ exists brd (Lf : ix -> list Z), brdcast_shape (mleaves args axs) = Some brd /\
  let ki := keep_idx (mleaves args axs) brd in
  sh o = rows o :: permute ki brd /\
  (forall N, (forall b, inb b brd -> (length (Lf b) <= N)%nat) -> (rows o <= N)%nat) /\
  forall b, inb b brd -> NoDup (Lf b) /\ (length (Lf b) <= rows o)%nat /\
    (forall r, (r < rows o)%nat -> at_ o (r :: permute ki b) = nth r (Lf b) (-1)%Z) /\
    forall z, In z (Lf b) <-> out_set (has LINEAR_IN_ONE fl) args axs b z.
Proof.
  intros Hne Hw [Hax0 Hax] H. rewrite xs_length in Hax0, Hax. unfold find_out_idx in H. destruct (any_weak args) eqn:Ew; cbn [negb] in H; [|discriminate]. split; [reflexivity|].
  fold (mleaves args axs) in H. destruct (brdcast_shape (mleaves args axs)) as [brd|] eqn:EB; [|discriminate]. cbn [bind] in H.
  set (ki := keep_idx (mleaves args axs) brd) in *. set (kb := permute ki brd) in *.
  set (ms := maxl (map (fun a => length (filter (fun z => (0 <=? z)%Z) (unique_idx (ljac a)))) args)) in *.
  set (masks := map (fun a => mask (ljac a)) args) in *.
  set (uq := fun (b : ix) (ml : nd Z * (shape * list nat)) => let (m, l) := ml in
        uniq_size (ms + 1) (-1)%Z (flat (slice_seq (leaf_seq (mleaves args axs) brd l) b (squeeze (snd l) m)))) in *.
  set (at_b := fun b => merge_lists (has LINEAR_IN_ONE fl) (map (fun ml => remove_fill (uq b ml)) (combine masks (mleaves args axs)))) in *.
  assert (Hallix : exists b0, inb b0 kb).
  { destruct (allix kb) as [|b0 l] eqn:E; [discriminate|]. exists b0. apply allix_spec. rewrite E. cbn; auto. }
  assert (Ho : o = Nd (maxl (map (fun b => length (at_b b)) (allix kb)) :: kb) (fun i => nth (hd 0%nat i) (at_b (tl i)) (-1)%Z)).
  { destruct (allix kb) as [|b0 l] eqn:E; [discriminate|]. injection H as <- _. reflexivity. }
  clear H.
  assert (Hlen1 : length (mleaves args axs) = length args).
  { unfold mleaves. rewrite combine_length, !map_length. lia. }
  assert (Hjw : forall a, (a < length args)%nat -> jwf n (sh (lx (nth a args la0))) (ljac (nth a args la0))).
  { intros a Ha. apply Hw. apply nth_In; auto. }
  assert (Hleaf : forall a, (a < length args)%nat -> nth a (mleaves args axs) ([], []) = (sh (mask (ljac (nth a args la0))), jac_axes (nth a axs []))).
  { intros a Ha. unfold mleaves. rewrite combine_nth by (rewrite !map_length; lia). f_equal.
    - rewrite nth_map_in with (dx := mask (ljac la0)) by (rewrite map_length; auto). rewrite nth_map_in with (dx := la0) by auto. reflexivity.
    - rewrite nth_map_in with (dx := []) by lia. reflexivity. }
  assert (Hlok : forall l, In l (mleaves args axs) -> leaf_ok l).
  { intros l Hl. apply (In_nth _ _ ([], [])) in Hl. destruct Hl as (a & Ha & <-). assert (a < length args)%nat as Ha2 by (rewrite <- Hlen1; exact Ha). clear Ha. rename Ha2 into Ha. rewrite Hleaf by auto.
    destruct (Hax a Ha) as [A1 A2]. rewrite (mask_sh (Hjw a Ha)). destruct (Hjw a Ha) as (k & Hk & _). unfold leaf_ok. cbn [fst snd]. rewrite Hk. split.
    - unfold jac_axes. apply NoDup_app_intro; [apply FinFun.Injective_map_NoDup; auto; intros x1 y1; lia|repeat constructor; auto|].
      intros d Hd [Hd'|[]]. apply in_map_iff in Hd. destruct Hd as (y & Hy & _). lia.
    - unfold jac_axes. intros d Hd. cbn. apply in_app_or in Hd. destruct Hd as [Hd|[Hd|[]]]; [|lia].
      apply in_map_iff in Hd. destruct Hd as (y & Hy & Hd). apply A2 in Hd. rewrite xs_nth in Hd by auto. unfold ndim in Hd. lia. }
  (* one argument at one batch element *)
  assert (Hset : forall a b, (a < length args)%nat -> inb b brd ->
     let l := remove_fill (uq (permute ki b) (mask (ljac (nth a args la0)), nth a (mleaves args axs) ([], []))) in
     NoDup l /\ forall z, In z l <-> (0 <= z)%Z /\ mval (nth a args la0) (nth a axs []) b z).
  { intros a b Ha Hb l. unfold l, uq. set (J := ljac (nth a args la0)). set (s := sh (lx (nth a args la0))).
    destruct (Hjw a Ha) as (k & Hk & Hm). assert (Hms : sh (mask J) = k :: s) by (unfold J; rewrite (mask_sh (Hjw a Ha)); auto).
    assert (Hfl : forall z, In z (flat (slice_seq (leaf_seq (mleaves args axs) brd (nth a (mleaves args axs) ([], []))) (permute ki b) (squeeze (snd (nth a (mleaves args axs) ([], []))) (mask J)))) <-> mval (nth a args la0) (nth a axs []) b z).
    { intros z. rewrite flat_In. rewrite Hleaf by auto. cbn [snd]. fold J.
      assert (Hin : In (sh (mask J), jac_axes (nth a axs [])) (mleaves args axs)) by (unfold J; rewrite <- Hleaf by auto; apply nth_In; lia).
      pose proof (@leaf_slice _ (mleaves args axs) brd (jac_axes (nth a axs [])) b (mask J) EB Hin (Hlok _ Hin) Hb) as HS. fold ki in HS.
      pose proof (eql_trans HS (@bslice_jac _ k s (nth a axs []) b (mask J) Hms)) as HS'. destruct HS' as [S1 S2]. rewrite S1.
      assert (Hr : rows (mask J) = k) by apply (rows_cons _ Hms). assert (Hr' : rows (jdata J) = k) by apply (rows_cons _ Hk).
      unfold mval. fold J s. rewrite Hr'. cbn [jslice sh]. rewrite Hr. split.
      - intros (i & Hi & E). inversion Hi as [|r k' j t Hlt Hj Ei]; subst i. exists r, j. split; auto. split; auto. rewrite <- E. rewrite S2; [reflexivity|].
        unfold ndim. rewrite S1. cbn. apply inb_length in Hj. lia.
      - intros (r & j & Hlt & Hj & E). exists (r :: j). split; [constructor; auto|]. rewrite <- E. rewrite S2; [reflexivity|].
        unfold ndim. rewrite S1. cbn. apply inb_length in Hj. lia. }
    destruct (nth a (mleaves args axs) ([], [])) as [sm am] eqn:El. cbn [snd] in *.
    destruct (@remove_fill_uniq (ms + 1) (flat (slice_seq (leaf_seq (mleaves args axs) brd (sm, am)) (permute ki b) (squeeze am (mask J))))) as [R1 R2].
    - (* at most max_size + 1 distinct values *)
      assert (Hincl : incl (uniqZ (flat (slice_seq (leaf_seq (mleaves args axs) brd (sm, am)) (permute ki b) (squeeze am (mask J))))) ((-1)%Z :: filter (fun z => (0 <=? z)%Z) (unique_idx J))).
      { intros z Hz. apply (proj1 (uniqZ_In _ _)) in Hz. apply Hfl in Hz. destruct Hz as (r & j & Hr & Hj & E).
        assert (Hbt : bto (reduced_shape s (nth a axs [])) brd).
        { assert (Hin : In (nth a (mleaves args axs) ([], [])) (mleaves args axs)) by (apply nth_In; lia). pose proof (@brd_bto _ _ _ EB Hin) as Hbt.
          rewrite Hleaf in Hbt by auto. cbn [fst snd] in Hbt. fold J in Hbt. rewrite Hms in Hbt. unfold reduced_shape in *. cbn [length] in Hbt.
          rewrite <- sax_keep, sax_jac, keep_pos_jac, permute_map_S, sax_keep in Hbt. exact Hbt. }
        pose proof (@wv_inb s (nth a axs []) brd b j Hbt Hb Hj) as Hwv.
        pose proof (mask_range (Hjw a Ha) Hr Hwv) as Hrg. pose proof (mask_unique (Hjw a Ha) Hr Hwv) as Hun. fold s in E. fold J in E, Hrg, Hun. rewrite E in Hrg, Hun.
        destruct (Z.eq_dec z (-1)) as [->|Hz]; [left; reflexivity|]. right. apply filter_In. split; auto. apply Z.leb_le. lia. }
      apply NoDup_incl_length in Hincl; [|apply uniqZ_NoDup]. cbn [length] in Hincl.
      assert (length (filter (fun z => (0 <=? z)%Z) (unique_idx J)) <= ms)%nat.
      { unfold ms. apply maxl_ge. apply in_map_iff. exists (nth a args la0). split; [reflexivity|]. apply nth_In; auto. }
      lia.
    - split; [exact R1|]. intros z. rewrite R2, Hfl. tauto. }
  assert (Hat : forall b, inb b brd -> NoDup (at_b (permute ki b)) /\ forall z, In z (at_b (permute ki b)) <-> out_set (has LINEAR_IN_ONE fl) args axs b z).
  { intros b Hb. unfold at_b.
    assert (Hmem : forall l, In l (map (fun ml => remove_fill (uq (permute ki b) ml)) (combine masks (mleaves args axs))) <->
       exists a, (a < length args)%nat /\ l = remove_fill (uq (permute ki b) (mask (ljac (nth a args la0)), nth a (mleaves args axs) ([], [])))).
    { intros l. rewrite in_map_iff. split.
      - intros (ml & <- & Hml). apply (In_nth _ _ (mask (ljac la0), ([], []))) in Hml. destruct Hml as (a & Ha & <-).
        rewrite combine_length in Ha. unfold masks in Ha. rewrite map_length in Ha. assert (a < length args)%nat as Ha2 by (eapply Nat.lt_le_trans; [exact Ha|apply Nat.le_min_l]). clear Ha.
        exists a. split; [exact Ha2|]. f_equal. f_equal.
        rewrite combine_nth by (unfold masks; rewrite map_length; symmetry; exact Hlen1). unfold masks. rewrite nth_map_in with (dx := la0) by exact Ha2. reflexivity.
      - intros (a & Ha & ->). exists (mask (ljac (nth a args la0)), nth a (mleaves args axs) ([], [])). split; [reflexivity|].
        replace (mask (ljac (nth a args la0))) with (nth a masks (mask (ljac la0))) by (unfold masks; rewrite nth_map_in with (dx := la0) by lia; reflexivity).
        apply in_combine_nth; [unfold masks; rewrite map_length; symmetry; exact Hlen1|unfold masks; rewrite map_length; exact Ha]. }
    destruct (@merge_lists_spec (has LINEAR_IN_ONE fl) (map (fun ml => remove_fill (uq (permute ki b) ml)) (combine masks (mleaves args axs)))) as [M1 M2].
    - intros E. apply (f_equal (@length _)) in E. rewrite map_length, combine_length in E. unfold masks in E. rewrite map_length in E. change (Nat.min (length args) (length (mleaves args axs)) = 0%nat) in E. rewrite Hlen1, Nat.min_id in E. destruct args; [congruence|discriminate E].
    - intros l Hl. apply Hmem in Hl. destruct Hl as (a & Ha & ->). apply Hset; auto.
    - split; [exact M1|]. intros z. rewrite M2. unfold out_set. destruct (has LINEAR_IN_ONE fl).
      + split.
        * intros HH. split.
          -- destruct args as [|a0 args']; [congruence|]. specialize (HH _ (proj2 (Hmem _) (ex_intro _ 0%nat (conj (Nat.lt_0_succ _) eq_refl)))).
             apply (Hset 0%nat b) in HH; [tauto|cbn; lia|auto].
          -- intros a Ha. specialize (HH _ (proj2 (Hmem _) (ex_intro _ a (conj Ha eq_refl)))). apply (Hset a b) in HH; tauto.
        * intros [Hz HH] l Hl. apply Hmem in Hl. destruct Hl as (a & Ha & ->). apply (Hset a b); auto.
      + split.
        * intros (l & Hl & Hz). apply Hmem in Hl. destruct Hl as (a & Ha & ->). apply (Hset a b) in Hz; auto. split; [tauto|]. exists a. tauto.
        * intros [Hz (a & Ha & Hm)]. eexists. split; [apply Hmem; exists a; split; [exact Ha|reflexivity]|]. apply (Hset a b); auto. }
  assert (Hkb : forall b, inb b brd -> inb (permute ki b) kb).
  { intros b Hb. apply permute_inb; auto. intros d Hd. apply keep_idx_In in Hd. auto. }
  exists brd, (fun b => at_b (permute ki b)). split; [reflexivity|]. subst o. cbn [sh rows hd at_ tl]. split; [reflexivity|]. split.
  - intros N HN. apply maxl_le. intros x Hx. apply in_map_iff in Hx. destruct Hx as (b' & <- & Hb'). apply allix_spec in Hb'.
    destruct (@bexp_spec brd ki (keep_idx_filter _ _) (fun k Hk Hn => @brd_one _ _ k EB Hlok Hk Hn) b' Hb') as [B1 B2].
    specialize (HN _ B1). rewrite B2 in HN. exact HN.
  - intros b Hb. destruct (Hat b Hb) as [A1 A2]. split; [exact A1|]. split; [|split; [reflexivity|exact A2]].
    apply maxl_ge. apply in_map_iff. exists (permute ki b). split; [reflexivity|]. apply allix_spec, Hkb; auto.
Qed.
End Idx.
