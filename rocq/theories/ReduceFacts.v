(* ReduceFacts.v : the general reduction path of sparse_jvp is exact *)
From Verif Require Export SumFacts CompactFacts.
From Coq Require Import ZifyBool.
Set Implicit Arguments.

(* ---- squeezing size-one axes ---- *)
Fixpoint sel (b : list bool) (l : list nat) : list nat :=
  match b, l with true :: b', x :: l' => x :: sel b' l' | false :: b', _ :: l' => sel b' l' | _, _ => [] end.
Lemma permute_filter_sel (P : nat -> bool) l : permute (filter P (seq 0 (length l))) l = sel (map P (seq 0 (length l))) l.
Proof.
  assert (forall l (P : nat -> bool) (a : nat) (full : list nat), skipn a full = l ->
    permute (filter P (seq a (length l))) full = sel (map P (seq a (length l))) l) as H.
  { clear. induction l as [|x l IH]; intros P a full Hs; [reflexivity|]. cbn [length seq map filter].
    assert (nth a full 0 = x) as Hx. { rewrite <- (firstn_skipn a full). rewrite Hs.
      assert (a < length full) by (apply (f_equal (@length nat)) in Hs; rewrite skipn_length in Hs; cbn in Hs; lia).
      rewrite app_nth2; rewrite firstn_length; [|lia]. replace (a - Nat.min a (length full)) with 0 by lia. reflexivity. }
    assert (skipn (S a) full = l) as Hs'. { change l with (tl (x :: l)). rewrite <- Hs. clear.
      revert full. induction a as [|a IH]; intros [|y f]; cbn [skipn tl]; auto. rewrite <- IH. destruct f; reflexivity. }
    destruct (P a); cbn [sel]; [rewrite permute_cons, Hx; f_equal|]; apply IH; auto. }
  apply H. reflexivity.
Qed.
Lemma ravel_sel b s q : length b = length s -> length q = length s ->
  (forall d, d < length s -> nth d b true = false -> nth d s 0 = 1 /\ nth d q 0 = 0) ->
  prod (sel b s) = prod s /\ ravel_ix (sel b s) (sel b q) = ravel_ix s q.
Proof.
  revert s q. induction b as [|x b IH]; intros [|n s] [|y q] H1 H2 Hz; cbn in H1, H2; try lia; [auto|].
  destruct (IH s q) as [E1 E2]; [lia|lia|intros d Hd E; apply (Hz (S d)); cbn; auto; lia|].
  destruct x; cbn [sel prod ravel_ix].
  - rewrite E1, E2. auto.
  - destruct (Hz 0 ltac:(cbn; lia) eq_refl) as [Z1 Z2]. cbn in Z1, Z2. subst. rewrite E1, E2. lia.
Qed.

Section R.
Context {A : Type} {RA : CRing A}.
Add Ring Aring8 : (@rth A RA).
Open Scope cr_scope.

Theorem jac_for_reduction_spec J m n s axes : jwf n s J -> jidx J = Some m -> NoDup axes ->
  (forall d, In d axes -> (d < length s)%nat) ->
  forall gt om, get_jacobian_for_reduction J axes = Some (gt, om) ->
  let keep := keep_pos (length s) axes in
  let t := permute keep s in
  exists mu, (0 < mu)%nat /\ sh gt = mu :: s /\ sh om = mu :: t /\
   (forall r q, (r < mu)%nat -> inb q s -> at_ gt (r :: q) =
      let z := at_ om (r :: permute keep q) in if (0 <=? z)%Z then jent J (Z.to_nat z) q else 0) /\
   (forall r c, (r < mu)%nat -> inb c t -> (-1 <= at_ om (r :: c) < Z.of_nat n)%Z) /\
   (forall r r' c, (r < mu)%nat -> (r' < mu)%nat -> inb c t -> (0 <= at_ om (r :: c))%Z ->
      at_ om (r :: c) = at_ om (r' :: c) -> r = r') /\
   (forall i q, inb q s -> (forall r, (r < mu)%nat -> at_ om (r :: permute keep q) <> Z.of_nat i) -> jent J i q = 0).
Proof.
  intros Hwf Em Hnd Hlt gt om H keep t. destruct (jwf_sparse Hwf Em) as (Hd & Hm & Hran).
  set (k := rows (jdata J)) in *. unfold get_jacobian_for_reduction in H. cbv zeta in H. rewrite (mask_sparse _ Em) in H.
  set (m1 := bexc1 (tl (sh m)) m) in *.
  assert (sh m1 = k :: s) as Hm1 by (unfold m1; rewrite bexc1_sh, (rows_cons _ Hm), Hm; reflexivity).
  assert (forall r q, (r < k)%nat -> inb q s -> at_ m1 (r :: q) = at_ m (r :: q)) as Hm1a.
  { intros r q Hr Hq. unfold m1. rewrite Hm. cbn [tl]. rewrite (bexc1_at _ _ _ Hm Hr) by (rewrite (inb_length Hq); auto).
    rewrite bproj_same; auto. }
  unfold ndim in H. rewrite Hm1 in H. cbn [tl length] in H.
  set (jred := map S axes ++ [0%nat]) in *.
  assert (filter (fun d => negb (existsb (Nat.eqb d) jred)) (seq 0 (S (length s))) = map S keep) as Hkept.
  { assert (forall d, existsb (Nat.eqb (S d)) jred = existsb (Nat.eqb d) axes) as E.
    { intros d. unfold jred. rewrite existsb_app. cbn. rewrite orb_false_r. clear. induction axes; cbn; auto. rewrite IHaxes. reflexivity. }
    change (seq 0 (S (length s))) with (0%nat :: seq 1 (length s)). rewrite <- seq_shift. unfold keep, keep_pos. cbn [filter].
    assert (existsb (Nat.eqb 0) jred = true) as E0 by (apply existsb_eqb_In; unfold jred; apply in_or_app; cbn; auto).
    rewrite E0. cbn [negb]. generalize (seq 0 (length s)). intros ls. induction ls as [|d ls IH]; [reflexivity|]. cbn [map filter].
    rewrite E. destruct (existsb (Nat.eqb d) axes); cbn [negb map]; [exact IH|f_equal; exact IH]. }
  rewrite Hkept in H.
  assert (permute (map S keep) (k :: s) = t) as Hks.
  { unfold permute. rewrite map_map. reflexivity. }
  rewrite Hks in H. rewrite (rows_cons _ Hm1) in H.
  set (rsize := prod (permute axes s)) in *. set (ksize := prod t) in *.
  set (ord := map S keep ++ jred) in *.
  assert (is_perm ord (S (length s))) as Hperm.
  { unfold ord, jred, is_perm. rewrite app_assoc, <- map_app. eapply Permutation_trans; [apply Permutation_app_comm|].
    cbn [app seq]. constructor. rewrite <- seq_shift. apply Permutation_map.
    eapply Permutation_trans; [apply Permutation_app_comm|]. apply axes_keep_perm; auto. }
  assert (forall x (l : list nat), permute ord (x :: l) = permute keep l ++ permute axes l ++ [x]) as Hpo.
  { intros x l0. unfold ord, jred. rewrite !permute_app. unfold permute. rewrite !map_map. reflexivity. }
  set (m3 := reshape [ksize; rsize; k] (transpose ord m1)) in *.
  set (per := fun b => filter (fun z => negb (Z.eqb z (-1))) (uniqZ (flat (row m3 b)))) in *.
  set (mu := maxl (map (fun b => length (per b)) (seq 0 ksize))) in *.
  set (omf := Nd [ksize; mu] (fun i => nth (nth 1 i 0%nat) (per (nth 0 i 0%nat)) (-1)%Z)) in *.
  set (oms := transpose (argsort ord) (reshape (t ++ repeat 1%nat (length (permute axes s)) ++ [mu]) omf)) in *.
  (* per b : the stored indices of the slice with kept coordinates c, ravel c = b *)
  assert (forall c z, inb c t -> In z (per (ravel_ix t c)) <->
     z <> (-1)%Z /\ exists r q, (r < k)%nat /\ inb q s /\ permute keep q = c /\ at_ m (r :: q) = z) as Hper.
  { intros c z Hc. unfold per. rewrite filter_In, uniqZ_In, flat_In. rewrite negb_true_iff.
    assert (forall j r, inb j (permute axes s) -> (r < k)%nat ->
       at_ m3 [ravel_ix t c; ravel_ix (permute axes s) j; r] = at_ m (r :: weave (length s) axes c j)) as G.
    { intros j r Hj Hr.
      assert (inb (weave (length s) axes c j) s) as Hw by (apply weave_inb; auto).
      rewrite <- Hm1a by auto.
      rewrite <- (@transpose_at _ ord m1 (r :: weave (length s) axes c j)).
      2:{ unfold ndim. rewrite Hm1. auto. }
      2:{ unfold ndim. rewrite Hm1. cbn. rewrite weave_length. auto. }
      rewrite Hpo. unfold keep at 1. rewrite weave_axes, weave_keep; auto.
      2:{ rewrite (inb_length Hc). unfold t. apply permute_length. }
      2:{ rewrite (inb_length Hj). apply permute_length. }
      unfold m3. apply reshape_ravel_eq.
      - rewrite transpose_sh, Hm1, Hpo. fold t. repeat apply inb_app; auto. repeat constructor; auto.
      - rewrite transpose_sh, Hm1, Hpo. fold t. rewrite ravel_app by (apply inb_length; auto).
        rewrite ravel_app by (apply inb_length; auto). rewrite !prod_app. cbn [prod ravel_ix]. fold rsize. lia. }
    split.
    - intros [(i & Hi & E) Hz]. split; [intros ->; discriminate|].
      unfold row in Hi, E. cbn [sh m3 reshape tl at_] in Hi, E.
      inversion Hi as [|x ? i1 ? Hx Hi1]; subst. inversion Hi1 as [|r ? i2 ? Hr Hi2]; subst. inversion Hi2; subst.
      pose proof (unravel_inb _ Hx) as Hj.
      exists r, (weave (length s) axes c (unravel_ix (permute axes s) x)). split; auto.
      split; [apply weave_inb; auto|]. split.
      + apply weave_keep. rewrite (inb_length Hc). apply permute_length.
      + symmetry. rewrite <- G by auto. rewrite ravel_unravel by auto. reflexivity.
    - intros (Hz & r & q & Hr & Hq & Hc' & E). split; [|lia].
      exists [ravel_ix (permute axes s) (permute axes q); r]. 
      assert (inb (permute axes q) (permute axes s)) as Hj by (apply permute_inb; auto).
      split.
      + cbn. repeat constructor; auto. apply ravel_lt; auto.
      + unfold row. cbn [at_]. rewrite G by auto. rewrite <- Hc'. unfold keep. rewrite weave_permute by (auto; apply inb_length; auto). auto. }
  assert (forall c, inb c t -> NoDup (per (ravel_ix t c)) /\ (length (per (ravel_ix t c)) <= mu)%nat) as Hperd.
  { intros c Hc. split.
    - apply NoDup_filter, uniqZ_NoDup.
    - apply maxl_ge. apply in_map_iff. exists (ravel_ix t c). split; auto. apply in_seq. pose proof (ravel_lt Hc). fold ksize in H0. lia. }
  (* the shape with the reduced axes kept as size one *)
  set (t1 := map (fun d => if existsb (Nat.eqb d) axes then 1%nat else nth d s 0%nat) (seq 0 (length s))).
  assert (length t1 = length s) as Hlt1 by (unfold t1; rewrite map_length, seq_length; auto).
  assert (forall d, (d < length s)%nat -> nth d t1 0%nat = if existsb (Nat.eqb d) axes then 1%nat else nth d s 0%nat) as Ht1n.
  { intros d Hd'. unfold t1. rewrite nth_map_in with (dx := 0%nat) by (rewrite seq_length; auto). rewrite seq_nth by auto. reflexivity. }
  assert (permute keep t1 = t) as Hkt1.
  { apply map_ext_in. intros d Hd'. apply keep_pos_In in Hd'. rewrite Ht1n by tauto. rewrite (proj2 (existsb_eqb_nIn _ _)) by tauto. auto. }
  assert (permute axes t1 = repeat 1%nat (length axes)) as Hat1.
  { unfold permute. clear - Ht1n Hlt. assert (forall d, In d axes -> nth d t1 0%nat = 1%nat) as G.
    { intros d Hd. rewrite Ht1n by auto. rewrite (proj2 (existsb_eqb_In _ _)); auto. }
    clearbody t1. clear - G. induction axes as [|d l0 IH]; cbn; auto. rewrite G by (cbn; auto). f_equal. apply IH. intros; apply G; cbn; auto. }
  assert (bto t1 s) as Hbt.
  { exists [], s. split; auto. unfold t1. rewrite <- (map_nth_seq s 0%nat) at 2. generalize (seq 0 (length s)). intros ls.
    induction ls as [|d ls IH]; cbn [map]; constructor; auto. destruct (existsb _ axes); auto. }
  assert (sh oms = mu :: t1) as Homs.
  { unfold oms. rewrite transpose_sh. cbn [reshape sh]. rewrite permute_length.
    replace (t ++ repeat 1%nat (length axes) ++ [mu]) with (permute ord (mu :: t1)) by (rewrite Hpo, Hkt1, Hat1; reflexivity).
    apply permute_argsort with (n := S (length s)); auto. cbn. lia. }
  assert (forall r c q, (r < mu)%nat -> inb c t -> inb q t1 -> permute keep q = c ->
     at_ oms (r :: q) = nth r (per (ravel_ix t c)) (-1)%Z) as Homs_at.
  { intros r c q Hr Hc Hq E. unfold oms.
    rewrite transpose_argsort_at.
    2:{ unfold ndim. cbn [reshape sh]. rewrite !app_length, repeat_length, !permute_length.
        replace (length t + (length axes + length [mu]))%nat with (S (length s)); auto.
        pose proof (is_perm_length Hperm) as L. unfold ord, jred in L. rewrite !app_length, !map_length in L. unfold t. rewrite permute_length. cbn in *. lia. }
    2:{ unfold ndim. cbn [reshape sh]. rewrite !app_length, repeat_length, !permute_length.
        pose proof (is_perm_length Hperm) as L. unfold ord, jred in L. rewrite !app_length, !map_length in L. unfold t. rewrite permute_length. cbn in *. rewrite (inb_length Hq). lia. }
    rewrite Hpo, E.
    assert (inb (permute axes q) (repeat 1%nat (length (permute axes s)))) as Ha.
    { rewrite permute_length, <- Hat1. apply permute_inb; auto. intros d Hd'. rewrite Hlt1. auto. }
    assert (at_ omf [ravel_ix t c; r] = nth r (per (ravel_ix t c)) (-1)%Z) as <- by reflexivity.
    apply reshape_ravel_eq.
    - repeat constructor; auto. apply ravel_lt; auto.
    - rewrite ravel_app by (apply inb_length; auto). rewrite ravel_app by (apply inb_length; auto).
      rewrite prod_app. cbn [prod ravel_ix sh omf].
      assert (forall l i, inb i (repeat 1%nat l) -> prod (repeat 1%nat l) = 1%nat /\ ravel_ix (repeat 1%nat l) i = 0%nat) as G.
      { clear. induction l as [|l IH]; cbn; intros i Hi; inversion Hi as [|x ? i1 ? Hx Hi1]; subst; [auto|]. destruct (IH _ Hi1) as [-> E]. cbn. rewrite E. lia. }
      destruct (G _ _ Ha) as [-> ->]. lia. }
  change ((let* im := get_index_mask J oms in let* jj := materialize_for_idx J true im mu in Some (jj, reshape (mu :: t) oms)) = Some (gt, om)) in H.
  destruct (get_index_mask J oms) as [im|] eqn:Eim; [|discriminate]. cbn [bind] in H.
  destruct (materialize_for_idx J true im mu) as [jj|] eqn:Ejj; [|discriminate]. cbn [bind] in H. injection H as <- <-.
  assert (0 < mu)%nat as Hmu.
  { unfold get_index_mask in Eim. rewrite (rows_cons _ Homs) in Eim. destruct (Nat.eqb mu 0) eqn:E0; [discriminate|lia]. }
  destruct (@construct_sparse_spec _ _ J m oms n k s mu t1 Hwf Em Hd Homs Hbt Hmu) as (res & Eres & Hres & Hresat).
  assert (res = jj) as ->.
  { unfold construct_jac_for_idx in Eres. rewrite (rows_cons _ Homs) in Eres. destruct (Nat.eqb_spec mu 0); [lia|]. rewrite Em in Eres.
    rewrite Eim in Eres. cbn [bind] in Eres. rewrite Ejj in Eres. congruence. }
  assert (forall q, inb q s -> inb (bproj t1 q) t1 /\ permute keep (bproj t1 q) = permute keep q) as Hbp.
  { intros q Hq. split; [apply bproj_inb with (s := s); auto|]. apply permute_ext. intros d Hd'. apply keep_pos_In in Hd'.
    pose proof (inb_length Hq) as Lq. rewrite bproj_nth by lia. rewrite Ht1n by tauto. rewrite (proj2 (existsb_eqb_nIn _ _)) by tauto.
    destruct (Nat.eqb_spec (nth d s 0%nat) 1).
    - pose proof (inb_nth Hq (d := d)). lia.
    - f_equal. lia. }
  assert (forall q, inb q s -> inb (permute keep q) t) as Hkq.
  { intros q Hq. apply permute_inb; auto. intros d Hd'. apply keep_pos_In in Hd'. tauto. }
  assert (forall r c, (r < mu)%nat -> inb c t -> at_ (reshape (mu :: t) oms) (r :: c) = nth r (per (ravel_ix t c)) (-1)%Z) as Hom.
  { intros r c Hr Hc. set (q0 := weave (length s) axes c (repeat 0%nat (length axes))).
    assert (length c = length keep) as Lc by (rewrite (inb_length Hc); apply permute_length).
    assert (inb q0 t1) as Hq0.
    { unfold q0. rewrite <- Hlt1. apply weave_inb; auto.
      - intros; rewrite Hlt1; auto.
      - rewrite Hlt1. fold keep. rewrite Hkt1. auto.
      - rewrite Hat1. clear. induction axes; cbn; constructor; auto. }
    assert (permute keep q0 = c) as Hkq0 by (apply weave_keep; auto).
    rewrite <- (Homs_at r c q0) by auto. apply reshape_ravel_eq.
    - rewrite Homs. apply inb_cons. auto.
    - rewrite Homs. cbn [ravel_ix].
      destruct (@ravel_sel (map (fun d => negb (existsb (Nat.eqb d) axes)) (seq 0 (length t1))) t1 q0) as [P1 P2].
      + rewrite map_length, seq_length. auto.
      + apply inb_length; auto.
      + intros d Hd' E. rewrite nth_map_in with (dx := 0%nat) in E by (rewrite seq_length; auto). rewrite seq_nth in E by auto. cbn [plus] in E.
        apply negb_false_iff in E. rewrite Hlt1 in Hd'. rewrite Ht1n by auto. rewrite E. split; auto.
        pose proof (inb_nth Hq0 (d := d) ltac:(lia)) as Hlt0. rewrite Ht1n, E in Hlt0 by auto. lia.
      + assert (forall l, length l = length s -> sel (map (fun d => negb (existsb (Nat.eqb d) axes)) (seq 0 (length s))) l = permute keep l) as Gs.
        { intros l El. unfold keep, keep_pos. rewrite <- El. symmetry. apply permute_filter_sel. }
        rewrite Hlt1 in P1, P2. rewrite !Gs in P1, P2 by (rewrite ?(inb_length Hq0); auto).
        rewrite Hkt1 in P1, P2. rewrite (Gs q0) in P2 by (rewrite (inb_length Hq0); auto). rewrite Hkq0 in P2. rewrite P1, P2. reflexivity. }
  exists mu. split; [exact Hmu|]. split; [exact Hres|]. split; [reflexivity|]. split; [|split; [|split]].
  - intros r q Hr Hq. cbn zeta. rewrite Hresat by auto. cbn zeta. destruct (Hbp q Hq) as [B1 B2].
    rewrite Hom by auto. rewrite (Homs_at r (permute keep q) (bproj t1 q)) by auto.
    set (z := nth r (per (ravel_ix t (permute keep q))) (-1)%Z).
    destruct (Z.leb_spec 0 z) as [Hz|Hz]; [|reflexivity]. cbn [andb].
    assert (olist oms t1 mu q = map (fun r => nth r (per (ravel_ix t (permute keep q))) (-1)%Z) (seq 0 mu)) as Ho.
    { apply map_ext_in. intros r' Hr'. apply in_seq in Hr'. apply Homs_at; auto. lia. }
    destruct (Hperd _ (Hkq q Hq)) as [D1 D2].
    rewrite (@zpos_unique z (olist oms t1 mu q) r (-1)%Z).
    + rewrite Nat.eqb_refl. reflexivity.
    + rewrite Ho. apply in_map_iff. exists r. split; auto. apply in_seq. lia.
    + rewrite olist_length. auto.
    + rewrite Ho. rewrite nth_map_in with (dx := 0%nat) by (rewrite seq_length; auto). rewrite seq_nth by auto. reflexivity.
    + intros r' Hr' E. rewrite olist_length in Hr'. rewrite Ho in E. rewrite nth_map_in with (dx := 0%nat) in E by (rewrite seq_length; auto).
      rewrite seq_nth in E by auto. cbn [plus] in E. unfold z in *.
      destruct (Nat.lt_ge_cases r (length (per (ravel_ix t (permute keep q))))) as [L1|L1]; [|rewrite nth_overflow in Hz by auto; lia].
      destruct (Nat.lt_ge_cases r' (length (per (ravel_ix t (permute keep q))))) as [L2|L2]; [|rewrite (nth_overflow _ _ L2) in E; lia].
      apply (proj1 (NoDup_nth _ (-1)%Z) D1); auto.
  - intros r c Hr Hc. rewrite Hom by auto. destruct (Nat.lt_ge_cases r (length (per (ravel_ix t c)))) as [L|L].
    + pose proof (nth_In _ (-1)%Z L) as Hin. apply (Hper c) in Hin; auto. destruct Hin as (_ & r' & q & Hr' & Hq & _ & <-). apply Hran; auto.
    + rewrite nth_overflow by auto. lia.
  - intros r r' c Hr Hr' Hc Hz E. rewrite !Hom in * by auto. destruct (Hperd c Hc) as [D1 D2].
    destruct (Nat.lt_ge_cases r (length (per (ravel_ix t c)))) as [L1|L1]; [|rewrite nth_overflow in Hz by auto; lia].
    destruct (Nat.lt_ge_cases r' (length (per (ravel_ix t c)))) as [L2|L2]; [|rewrite (nth_overflow _ _ L2) in E; lia].
    apply (proj1 (NoDup_nth _ (-1)%Z) D1); auto.
  - intros i q Hq Hno. rewrite (jent_sparse _ _ _ Em). apply sumn_zero. intros r Hr.
    destruct (Z.eqb_spec (at_ m (r :: q)) (Z.of_nat i)) as [E|]; auto. exfalso.
    assert (In (Z.of_nat i) (per (ravel_ix t (permute keep q)))) as Hin.
    { apply Hper; auto. split; [lia|]. exists r, q. auto. }
    apply (In_nth _ _ (-1)%Z) in Hin. destruct Hin as (r' & Hr' & E'). destruct (Hperd _ (Hkq q Hq)) as [_ D2].
    apply (Hno r'); [lia|]. rewrite Hom by (auto; lia). auto.
Qed.

Theorem sparse_reduction_sound n f a axes threshold fl ax r : (0 < n)%nat -> awf n a -> weak (ljac a) = true ->
  let nax := norm_axes (ndim (lx a)) axes in
  NoDup nax -> (forall d, In d nax -> (d < ndim (lx a))%nat) -> reduces f (lx a) nax ->
  (axes_nil ax = true -> elementwise f [lx a]) ->
  sparse_reduction_jvp f a axes threshold fl ax = Some r ->
  step_ok n f [a] r /\ jdistinct (snd (fst r)) /\
  (weak (snd (fst r)) = true -> (Z.of_nat (rows (jdata (snd (fst r)))) <= threshold)%Z /\ (1 <= rows (jdata (snd (fst r))))%nat).
Proof.
  intros Hn [Hwf Hl] Hw nax Hnd Hlt Hred He H. unfold weak in Hw. destruct (jidx (ljac a)) as [m|] eqn:Em; [|discriminate].
  destruct (jwf_sparse Hwf Em) as (Hd & Hm & Hran).
  unfold sparse_reduction_jvp in H.
  assert (ndim (jdata (ljac a)) - 1 = ndim (lx a))%nat as En by (unfold ndim; rewrite Hd; cbn; lia).
  rewrite En in H. fold nax in H.
  destruct (get_jacobian_for_reduction (ljac a) nax) as [[gt om]|] eqn:Eg; [|discriminate]. cbn [bind] in H.
  unfold ndim in Hlt. set (s := sh (lx a)) in *.
  destruct (jac_for_reduction_spec Hwf Em Hnd Hlt Eg) as (mu & Hmu & Hgt & Hom & Hgta & Hrg & Hdis & Hcov). cbv zeta in *.
  set (keep := keep_pos (length s) nax) in *. set (t := permute keep s) in *.
  destruct (Z.ltb_spec threshold (Z.of_nat (rows om))) as [Hth|Hth].
  { destruct (@dense_jvp_sound _ _ n f [a] fl ax r) as [S1 S2]; auto; [congruence|intros b [<-|[]]; split; auto|].
    split; [auto|]. split; [|rewrite S2; discriminate].
    unfold jdistinct. unfold weak in S2. destruct (jidx (snd (fst r))); [discriminate|exact I]. }
  rewrite (rows_cons _ Hom) in Hth.
  destruct (bexc gt (expand0 (llap a))) as [[g' l']|] eqn:Eb; [|discriminate]. cbn [bind] in H.
  unfold bexc in Eb. rewrite Hgt in Eb. cbn [tl expand0 sh] in Eb. rewrite Hl in Eb. fold s in Eb. rewrite bshape2_refl in Eb. cbn [bind] in Eb.
  injection Eb as <- <-.
  assert (sh (bexc1 s gt) = mu :: s) as Hg' by (rewrite bexc1_sh, (rows_cons _ Hgt); auto).
  assert (sh (bexc1 s (expand0 (llap a))) = 1%nat :: s) as Hl' by (rewrite bexc1_sh; reflexivity).
  assert (forall r q, (r < mu)%nat -> inb q s -> at_ (bexc1 s gt) (r :: q) = at_ gt (r :: q)) as Hga.
  { intros r0 q Hr Hq. rewrite (bexc1_at _ _ _ Hgt Hr) by (rewrite (inb_length Hq); auto). rewrite bproj_same; auto. }
  assert (forall q, inb q s -> at_ (bexc1 s (expand0 (llap a))) (0%nat :: q) = at_ (llap a) q) as Hla.
  { intros q Hq. rewrite (@bexc1_at _ _ _ 1 s) by (try (rewrite (inb_length Hq)); cbn; rewrite ?Hl; auto). rewrite bproj_same; auto. }
  set (tan := concat0 0 [bexc1 s gt; bexc1 s (expand0 (llap a))]) in *.
  assert (sh tan = (mu + 1)%nat :: s) as Ht by (apply (concat2_sh 0 _ _ Hg' Hl')).
  rewrite (rows_cons _ Ht) in H.
  set (yt := vmap_jvp f [lx a] (mu + 1) [tan]) in *. set (so := sh (o_fwd f [lx a])).
  assert (rows yt = mu + 1)%nat as Hry by reflexivity.
  assert (sh (butlast yt) = mu :: so) as Hgy.
  { unfold butlast. cbn [sh]. rewrite Hry. replace (mu + 1 - 1)%nat with mu by lia. reflexivity. }
  destruct (broadcast_mask_to_jacobian om (butlast yt)) as [nm|] eqn:Enm; [|discriminate]. cbn [bind] in H.
  destruct (sheq (sh (butlast yt)) (sh nm)); [|discriminate]. injection H as <-.
  destruct (bmj_spec _ _ Hom Hgy Enm) as (Hb & Hnm & Hnma).
  assert (forall r p, at_ yt (r :: p) = sumL (allix s) (fun q => o_d f [lx a] p 0%nat q * at_ tan (r :: q))) as Hyt.
  { intros r p. unfold yt. rewrite vmap_jvp_at by reflexivity. unfold chain1, sumn. cbn [length seq sumL nth]. fold s. ring. }
  assert (forall r p, (r < mu)%nat -> inb p so -> at_ (butlast yt) (r :: p) =
     let z := at_ om (r :: bproj t p) in if (0 <=? z)%Z then sumL (allix s) (fun q => o_d f [lx a] p 0%nat q * jent (ljac a) (Z.to_nat z) q) else 0) as Hgy_at.
  { intros r p Hr Hp. cbn [butlast at_]. rewrite Hyt. cbv zeta. transitivity (sumL (allix s) (fun q => o_d f [lx a] p 0%nat q * (if (0 <=? at_ om (r :: bproj t p))%Z then jent (ljac a) (Z.to_nat (at_ om (r :: bproj t p))) q else 0))).
    - apply sumL_ext. intros q Hq. apply allix_spec in Hq. destruct (list_eq_dec Nat.eq_dec (permute keep q) (bproj t p)) as [E|E].
      + unfold tan. rewrite (concat2_at _ _ _ _ Hg' Hl') by lia. destruct (Nat.ltb_spec r mu); [|lia].
        rewrite Hga by auto. rewrite Hgta by auto. rewrite E. reflexivity.
      + rewrite (Hred p q) by auto. ring.
    - destruct (0 <=? at_ om (r :: bproj t p))%Z; [reflexivity|]. apply sumL_zero. intros; ring. }
  assert (forall p, inb p so -> inb (bproj t p) t) as Hbp by (intros; eapply bproj_inb; eauto).
  split; [|split].
  - unfold step_ok. cbn [xs_of map]. fold so. split; [reflexivity|]. split; [|split; [reflexivity|split]].
    + exists mu. cbn [jdata jidx]. split; [auto|]. split; [auto|]. intros r p Hr Hp. rewrite Hnma by auto. split; [apply Hrg; auto|].
      intros Hz. rewrite Hgy_at by auto. cbv zeta. destruct (Z.leb_spec 0 (at_ om (r :: bproj t p))); [lia|reflexivity].
    + intros i p Hp. rewrite (@jent_sparse _ _ _ nm) by reflexivity. cbn [jdata]. rewrite (rows_cons _ Hgy).
      unfold dspec, chain1. rewrite (@sumn_ext _ _ (length [lx a]) _ (fun _ => sumL (allix s) (fun q => o_d f [lx a] p 0%nat q * jent (ljac a) i q))) by (cbn; intros [|]; intros; [reflexivity|lia]).
      unfold sumn at 2. cbn [length seq sumL].
      rewrite (@sumn_ext _ _ mu _ (fun r => if Z.eqb (at_ om (r :: bproj t p)) (Z.of_nat i) then sumL (allix s) (fun q => o_d f [lx a] p 0%nat q * jent (ljac a) i q) else 0)).
      2:{ intros r Hr. rewrite Hnma by auto. destruct (Z.eqb_spec (at_ om (r :: bproj t p)) (Z.of_nat i)) as [E|]; [|reflexivity].
          rewrite Hgy_at by auto. cbv zeta. rewrite E. destruct (Z.leb_spec 0 (Z.of_nat i)); [|lia]. rewrite Nat2Z.id. reflexivity. }
      destruct (existsb (fun r => Z.eqb (at_ om (r :: bproj t p)) (Z.of_nat i)) (seq 0 mu)) eqn:Ex.
      * apply existsb_exists in Ex. destruct Ex as (r & Hr & E). apply in_seq in Hr. apply Z.eqb_eq in E.
        rewrite (@sumn_single _ _ mu r); [|lia|].
        -- rewrite E, Z.eqb_refl. ring.
        -- intros r' Hr' Hne. destruct (Z.eqb_spec (at_ om (r' :: bproj t p)) (Z.of_nat i)) as [E'|]; auto. exfalso. apply Hne.
           apply (Hdis r' r (bproj t p)); auto; lia.
      * assert (forall r, (r < mu)%nat -> at_ om (r :: bproj t p) <> Z.of_nat i) as Hno.
        { intros r Hr E. assert (existsb (fun r => Z.eqb (at_ om (r :: bproj t p)) (Z.of_nat i)) (seq 0 mu) = true); [|congruence].
          apply existsb_exists. exists r. split; [apply in_seq; lia|]. apply Z.eqb_eq; auto. }
        rewrite sumn_zero.
        -- rewrite sumL_zero; [ring|]. intros q Hq. apply allix_spec in Hq. destruct (list_eq_dec Nat.eq_dec (permute keep q) (bproj t p)) as [E|E].
           ++ rewrite (Hcov i q) by (auto; rewrite E; auto). ring.
           ++ rewrite (Hred p q) by auto. ring.
        -- intros r Hr. destruct (Z.eqb_spec (at_ om (r :: bproj t p)) (Z.of_nat i)) as [E|]; auto. exfalso. eapply Hno; eauto.
    + intros p Hp. unfold lastrow, row. cbn [at_]. rewrite Hry, Hyt. unfold lspec, chain1, sumn. cbn [length seq sumL nth xs_of map]. fold s.
      rewrite (sumL_ext _ _ (fun q => o_d f [lx a] p 0%nat q * at_ (llap a) q)); [ring|]. intros q Hq. apply allix_spec in Hq. f_equal.
      unfold tan. rewrite (concat2_at _ _ _ _ Hg' Hl') by lia. destruct (Nat.ltb_spec (mu + 1 - 1) mu); [lia|].
      replace (mu + 1 - 1 - mu)%nat with 0%nat by lia. auto.
  - unfold jdistinct. cbn [fst snd jidx]. intros k' s' E' r r' p Hr Hr' Hp. rewrite Hnm in E'. injection E' as <- <-.
    rewrite !Hnma by auto. intros Hz E. apply (Hdis r r' (bproj t p)); auto.
  - intros _. cbn [fst snd jdata]. rewrite (rows_cons _ Hgy). split; [exact Hth|lia].
Qed.
End R.
