(* IndexFacts.v : merging arguments and sparse_index_jvp (indexing operations on sparse Jacobians) *)
From Verif Require Export DiagFacts.
From Coq Require Import ZifyBool.
Set Implicit Arguments.

Lemma merge_layout mg n ne : merge_ok mg n ne ->
  exists lay, is_perm lay (n + ne) /\ mg nat (seq 0 n) (seq n ne) = lay /\
  forall (X : Type) (d : X) xs extra, length xs = n -> length extra = ne ->
    mg X xs extra = map (fun j => nth j (xs ++ extra) d) lay.
Proof.
  intros (lay & Hp & H). exists lay. split; [exact Hp|]. split; [|exact H].
  rewrite (H nat 0 (seq 0 n) (seq n ne)) by apply seq_length. rewrite <- seq_app.
  transitivity (map (fun j : nat => j) lay); [|apply map_id]. apply map_ext_in. intros j Hj.
  apply (is_perm_In j Hp) in Hj. apply seq_nth. lia.
Qed.
Lemma merge_length mg n ne X (xs extra : list X) : merge_ok mg n ne -> length xs = n -> length extra = ne ->
  length (mg X xs extra) = n + ne.
Proof.
  intros (lay & Hp & H) H1 H2. destruct xs as [|x xs].
  - destruct extra as [|e extra].
    + cbn in *. subst. destruct lay; [|apply Permutation_length in Hp; discriminate].
      destruct (mg X [] []) as [|x l] eqn:E; [reflexivity|].
      rewrite (H X x [] []) in E by auto. discriminate.
    + rewrite (H X e) by auto. rewrite map_length. apply Permutation_length in Hp. rewrite seq_length in Hp. auto.
  - rewrite (H X x) by auto. rewrite map_length. apply Permutation_length in Hp. rewrite seq_length in Hp. auto.
Qed.
(* the a-th derivative-carrying argument sits at posof a *)
Lemma merge_posof mg n ne X (d : X) xs extra a : merge_ok mg n ne -> length xs = n -> length extra = ne -> a < n ->
  posof mg n ne a < n + ne /\ nth (posof mg n ne a) (mg X xs extra) d = nth a xs d.
Proof.
  intros Hm H1 H2 Ha. destruct (merge_layout Hm) as (lay & Hp & E & H). unfold posof. rewrite E.
  assert (In a lay) as Hin by (apply (is_perm_In a Hp); lia).
  pose proof (pos_lt _ _ Hin) as Hl. rewrite (is_perm_length Hp) in Hl. split; [lia|].
  rewrite (H X d) by auto. rewrite nth_map_in with (dx := 0) by (rewrite (is_perm_length Hp); lia).
  rewrite nth_pos by auto. apply app_nth1. lia.
Qed.
Lemma posof_inj mg n ne a b : merge_ok mg n ne -> a < n -> b < n -> posof mg n ne a = posof mg n ne b -> a = b.
Proof.
  intros Hm Ha Hb E. pose proof (@merge_posof mg n ne nat 0 (seq 0 n) (repeat 0 ne) a Hm) as H1.
  pose proof (@merge_posof mg n ne nat 0 (seq 0 n) (repeat 0 ne) b Hm) as H2.
  rewrite seq_length, repeat_length in *. destruct H1 as [_ H1]; auto. destruct H2 as [_ H2]; auto.
  rewrite E in H1. rewrite H1 in H2. rewrite !seq_nth in H2 by auto. lia.
Qed.
(* every place holds either a derivative-carrying argument or another one *)
Lemma merge_place mg n ne k : merge_ok mg n ne -> k < n + ne ->
  (exists a, a < n /\ posof mg n ne a = k) \/
  (exists e, e < ne /\ (forall a, a < n -> posof mg n ne a <> k) /\ nth k (mg nat (seq 0 n) (seq n ne)) 0 = n + e /\
     forall X (d : X) xs extra, length xs = n -> length extra = ne -> nth k (mg X xs extra) d = nth e extra d).
Proof.
  intros Hm Hk. destruct (merge_layout Hm) as (lay & Hp & E & H).
  pose proof (is_perm_length Hp) as Hl. pose proof (is_perm_NoDup Hp) as Hnd.
  set (j := nth k lay 0). assert (In j lay) as Hj by (apply nth_In; lia). apply (is_perm_In j Hp) in Hj.
  assert (pos j lay = k) as Hpk by (apply pos_nth; auto; lia).
  destruct (Nat.lt_ge_cases j n) as [Hjn|Hjn].
  - left. exists j. split; auto. unfold posof. rewrite E. auto.
  - right. exists (j - n). split; [lia|]. split; [|split].
    + intros a Ha. unfold posof. rewrite E. intros Hc. assert (In a lay) as Hin by (apply (is_perm_In a Hp); lia).
      assert (a = j); [|lia]. rewrite <- (nth_pos _ _ 0 Hin). rewrite Hc. reflexivity.
    + rewrite E. fold j. lia.
    + intros X d xs extra H1 H2. rewrite (H X d) by auto. rewrite nth_map_in with (dx := 0) by lia. fold j.
      rewrite app_nth2 by lia. f_equal. lia.
Qed.

Section I.
Context {A : Type} {RA : CRing A}.
Add Ring Aring6 : (@rth A RA).
Open Scope cr_scope.

Lemma iop_chain g mg extra xs p v n : merge_ok mg n (length extra) -> length xs = n ->
  iop_wf g (map (@sh A) (mg _ xs extra)) -> inb p (i_shape g) ->
  let f := merged (iop_op g) mg n extra in
  (forall a, (a < n)%nat -> posof mg n (length extra) a = fst (i_src g p) ->
     chain1 f xs p v = v a (snd (i_src g p)) /\ inb (snd (i_src g p)) (sh (nth a xs nd0))) /\
  ((forall a, (a < n)%nat -> posof mg n (length extra) a <> fst (i_src g p)) -> chain1 f xs p v = 0).
Proof.
  intros Hm Hx Hwf Hp f. destruct (Hwf p Hp) as [Hs1 Hs2]. rewrite map_length in Hs1.
  rewrite nth_map_in with (dx := nd0) in Hs2 by auto.
  destruct (i_src g p) as [k q] eqn:Es. cbn [fst snd] in *.
  assert (forall a q', o_d f xs p a q' = if Nat.eqb k (posof mg n (length extra) a) && ixeqb q q' then 1 else 0) as Hd.
  { intros a q'. unfold f, merged, iop_op. cbn [o_d]. rewrite Es. reflexivity. }
  split.
  - intros a Ha Hpa. destruct (@merge_posof mg n (length extra) (nd A) nd0 xs extra a) as [_ Hn]; auto.
    rewrite Hpa in Hn. rewrite Hn in Hs2. split; [|exact Hs2]. unfold chain1. rewrite Hx.
    rewrite (@sumn_single _ _ n a); auto.
    + rewrite (@sumL_single _ _ _ _ q); [|apply allix_NoDup|apply allix_spec; auto|].
      * rewrite Hd, Hpa, Nat.eqb_refl. unfold ixeqb. destruct (list_eq_dec Nat.eq_dec q q); [|congruence]. cbn. ring.
      * intros q' Hq' Hne. rewrite Hd. unfold ixeqb. destruct (list_eq_dec Nat.eq_dec q q'); [congruence|].
        rewrite andb_false_r. ring.
    + intros b Hb Hne. apply sumL_zero. intros q' _. rewrite Hd. destruct (Nat.eqb_spec k (posof mg n (length extra) b)) as [Hk|]; [|cbn; ring].
      exfalso. apply Hne. apply (@posof_inj mg n (length extra)); auto. congruence.
  - intros Hall. apply sumn_zero. intros a Ha. rewrite Hx in Ha. apply sumL_zero. intros q' _. rewrite Hd.
    destruct (Nat.eqb_spec k (posof mg n (length extra) a)) as [Hk|]; [|cbn; ring]. exfalso. apply (Hall a); auto.
Qed.

Lemma pad_rows_spec {X} (d : X) M (a : nd X) k s : sh a = k :: s -> (k <= M)%nat ->
  sh (pad_rows d M a) = M :: s /\
  forall r p, (r < M)%nat -> at_ (pad_rows d M a) (r :: p) = if (r <? k)%nat then at_ a (r :: p) else d.
Proof.
  intros Hs Hk. unfold pad_rows. rewrite (rows_cons _ Hs), Hs. cbn [tl].
  set (b := Nd ((M - k)%nat :: s) (fun _ => d)). assert (sh b = (M - k)%nat :: s) as Hb by reflexivity. split.
  - rewrite (concat2_sh d a b Hs Hb). f_equal. lia.
  - intros r p Hr. rewrite (concat2_at d a b p Hs Hb) by lia. destruct (r <? k)%nat; reflexivity.
Qed.
Lemma maxl_const (l : list nat) M : l <> [] -> (forall x, In x l -> x = M) -> maxl l = M.
Proof.
  intros Hne H. destruct l as [|x l]; [congruence|].
  assert (forall l, (forall x, In x l -> x = M) -> (maxl l <= M)%nat) as Hm.
  { induction l0 as [|y l0 IH]; cbn; intros HH; [lia|]. rewrite (HH y) by auto.
    assert (maxl l0 <= M)%nat by (apply IH; auto). fold (maxl l0). lia. }
  cbn [maxl fold_right]. rewrite (H x) by (cbn; auto). specialize (Hm l (fun y Hy => H y (or_intror Hy))). fold (maxl l). lia.
Qed.

Theorem sparse_index_sound n g ok filled mg args extra fl ax r : (0 < n)%nat -> args <> [] ->
  (forall a, In a args -> awf n a) -> merge_ok mg (length args) (length extra) ->
  iop_wf g (map (@sh A) (mg _ (xs_of args) extra)) ->
  let f := merged (iop_op g) mg (length args) extra in
  (axes_nil ax = true -> elementwise f (xs_of args)) ->
  sparse_index_jvp g ok filled mg args extra fl ax = Some r ->
  step_ok n f args r.
Proof.
  intros Hn Hne Hwf Hm Hg f He H. unfold sparse_index_jvp in H. fold f in H.
  destruct (all_weak args) eqn:Hw; cbn [negb] in H; [|apply (@dense_jvp_sound _ _ n f args fl ax); auto].
  match type of H with (if ?c then _ else _) = _ => destruct c end; [apply (@dense_jvp_sound _ _ n f args fl ax); auto|].
  set (n' := length args) in *.
  set (M := maxl (map rows (map (fun a => mask (ljac a)) args))).
  assert (forall a, (a < n')%nat -> exists m, jidx (ljac (nth a args la0)) = Some m /\
     sh m = rows (jdata (ljac (nth a args la0))) :: sh (lx (nth a args la0)) /\
     sh (jdata (ljac (nth a args la0))) = rows (jdata (ljac (nth a args la0))) :: sh (lx (nth a args la0)) /\
     (rows (jdata (ljac (nth a args la0))) <= M)%nat /\ sh (llap (nth a args la0)) = sh (lx (nth a args la0)) /\
     forall r p, (r < rows (jdata (ljac (nth a args la0))))%nat -> inb p (sh (lx (nth a args la0))) ->
       (-1 <= at_ m (r :: p) < Z.of_nat n)%Z /\ ((at_ m (r :: p) < 0)%Z -> at_ (jdata (ljac (nth a args la0))) (r :: p) = 0)) as HA.
  { intros a Ha. destruct (all_weak_nth args Hw Ha) as [m Em]. exists m. split; auto.
    assert (awf n (nth a args la0)) as [Hj Hl] by (apply Hwf, nth_In; auto).
    destruct (jwf_sparse Hj Em) as (Hd & Hms & Hran). split; [auto|]. split; [auto|]. split; [|auto].
    rewrite <- (rows_cons _ Hms). apply maxl_ge. apply in_map_iff. exists (mask (ljac (nth a args la0))).
    rewrite (mask_sparse _ Em). split; auto. apply in_map_iff. exists (nth a args la0). split; [apply mask_sparse; auto|apply nth_In; auto]. }
  set (masks := broadcast_dim (-1)%Z (map (fun a => mask (ljac a)) args)) in *.
  assert (length masks = n') as Hlm by (unfold masks, broadcast_dim; rewrite !map_length; auto).
  assert (forall a, (a < n')%nat -> nth a masks (Nd [] (fun _ => (-1)%Z)) = pad_rows (-1)%Z M (mask (ljac (nth a args la0)))) as Hmn.
  { intros a Ha. unfold masks, broadcast_dim. fold M. rewrite map_map. rewrite nth_map_in with (dx := la0) by auto. auto. }
  set (datas := broadcast_dim 0 (map (fun a => jdata (ljac a)) args)) in *.
  assert (maxl (map rows (map (fun a => jdata (ljac a)) args)) = M) as HMd.
  { unfold M. f_equal. rewrite !map_map. apply nth_ext with (d := 0%nat) (d' := 0%nat); rewrite !map_length; auto.
    intros a Ha. rewrite !nth_map_in with (dx := la0) by auto. destruct (HA a Ha) as (m & Em & Hms & Hd & _).
    rewrite (mask_sparse _ Em), (rows_cons _ Hms). auto. }
  assert (length datas = n') as Hld by (unfold datas, broadcast_dim; rewrite !map_length; auto).
  assert (forall a, (a < n')%nat -> nth a datas nd0 = pad_rows 0 M (jdata (ljac (nth a args la0)))) as Hdn.
  { intros a Ha. unfold datas, broadcast_dim. rewrite HMd. rewrite map_map. rewrite nth_map_in with (dx := la0) by auto. auto. }
  assert (maxl (map rows masks) = M) as HK.
  { apply maxl_const.
    - destruct args; [congruence|]. unfold masks, broadcast_dim. cbn. congruence.
    - intros x Hx. apply in_map_iff in Hx. destruct Hx as (y & <- & Hy). apply (In_nth _ _ (Nd [] (fun _ => (-1)%Z))) in Hy.
      destruct Hy as (a & Ha & <-). rewrite Hlm in Ha. rewrite Hmn by auto.
      destruct (HA a Ha) as (m & Em & Hms & _ & Hle & _). rewrite (mask_sparse _ Em).
      destruct (pad_rows_spec (-1)%Z _ Hms Hle) as [Hs _]. apply (rows_cons _ Hs). }
  rewrite HK in H.
  set (tan := map2 (fun j l => concat0 0 [j; expand0 l]) datas (laps_of args)) in *.
  assert (length tan = n') as Htl by (unfold tan; rewrite map2_length; unfold laps_of; rewrite map_length; fold n'; lia).
  assert (forall a, (a < n')%nat ->
     (forall r q, (r < M)%nat -> at_ (nth a tan nd0) (r :: q) =
         if (r <? rows (jdata (ljac (nth a args la0))))%nat then at_ (jdata (ljac (nth a args la0))) (r :: q) else 0) /\
     (forall q, at_ (nth a tan nd0) (M :: q) = at_ (llap (nth a args la0)) q)) as Ht.
  { intros a Ha. destruct (HA a Ha) as (m & Em & Hms & Hd & Hle & HL & _).
    destruct (pad_rows_spec 0 _ Hd Hle) as [Hs Hat].
    assert (sh (expand0 (llap (nth a args la0))) = 1%nat :: sh (lx (nth a args la0))) as HS2 by (cbn; rewrite HL; auto).
    unfold tan. rewrite nth_map2 with (dx := nd0) (dy := nd0) by (unfold laps_of; rewrite ?map_length; fold n'; lia).
    rewrite laps_nth by auto. rewrite Hdn by auto. split.
    - intros r' q Hr'. rewrite (concat2_at _ _ _ _ Hs HS2) by lia. destruct (Nat.ltb_spec r' M); [auto|lia].
    - intros q. rewrite (concat2_at _ _ _ _ Hs HS2) by lia. destruct (Nat.ltb_spec M M); [lia|]. reflexivity. }
  set (yt := vmap_jvp f (xs_of args) (M + 1) tan) in *.
  assert (rows yt = (M + 1)%nat) as Hry by reflexivity.
  assert (length (xs_of args) = n') as Hxl by (unfold xs_of; rewrite map_length; auto).
  set (so := i_shape g).
  assert (sh (o_fwd f (xs_of args)) = so) as Hso by reflexivity.
  assert (sh (butlast yt) = M :: so) as Hs.
  { unfold butlast. rewrite Hry. cbn. f_equal. lia. }
  set (mm := stack M so (fun r => iop_fwd (-1)%Z g (mg _ (map (fun t => row t r) masks) (map (fun e => Nd (sh e) (fun _ => (-1)%Z)) extra)))) in *.
  change (i_shape g) with so in H. fold mm in H.
  destruct (sheq (sh (butlast yt)) (sh mm)); [|discriminate]. injection H as <-.
  (* values of data and mask at (r, p) *)
  assert (forall r p, (r < M)%nat -> inb p so ->
    (exists a m, (a < n')%nat /\ jidx (ljac (nth a args la0)) = Some m /\ posof mg n' (length extra) a = fst (i_src g p) /\
       inb (snd (i_src g p)) (sh (lx (nth a args la0))) /\
       at_ mm (r :: p) = (if (r <? rows (jdata (ljac (nth a args la0))))%nat then at_ m (r :: snd (i_src g p)) else (-1)%Z) /\
       at_ (butlast yt) (r :: p) = (if (r <? rows (jdata (ljac (nth a args la0))))%nat then at_ (jdata (ljac (nth a args la0))) (r :: snd (i_src g p)) else 0)) \/
    ((forall a, (a < n')%nat -> posof mg n' (length extra) a <> fst (i_src g p)) /\ at_ mm (r :: p) = (-1)%Z /\ at_ (butlast yt) (r :: p) = 0)) as HV.
  { intros r' p Hr' Hp.
    assert (at_ (butlast yt) (r' :: p) = chain1 f (xs_of args) p (fun a q => at_ (nth a tan nd0) (r' :: q))) as HB.
    { cbn [butlast at_]. unfold yt. apply vmap_jvp_at. congruence. }
    assert (at_ mm (r' :: p) = at_ (nth (fst (i_src g p)) (mg _ (map (fun t => row t r') masks) (map (fun e => Nd (sh e) (fun _ => (-1)%Z)) extra)) (Nd [] (fun _ => (-1)%Z))) (snd (i_src g p))) as HMM.
    { unfold mm. cbn [stack at_ hd tl iop_fwd]. destruct (i_src g p). reflexivity. }
    destruct (Hg p Hp) as [Hg1 _]. rewrite map_length in Hg1. rewrite (merge_length (xs_of args) extra Hm) in Hg1 by auto.
    destruct (@iop_chain g mg extra (xs_of args) p (fun a q => at_ (nth a tan nd0) (r' :: q)) n' Hm Hxl Hg Hp) as [C1 C2].
    destruct (merge_place Hm Hg1) as [(a & Ha & Hpa)|(e & He' & Hno & Hlay & Hnth)].
    - left. destruct (HA a Ha) as (m & Em & Hms & Hd & Hle & HL & Hran). exists a, m.
      destruct (C1 a Ha Hpa) as [C3 C4]. rewrite xs_nth in C4 by auto.
      split; [auto|]. split; [auto|]. split; [auto|]. split; [auto|]. split.
      + rewrite HMM, <- Hpa. destruct (@merge_posof mg n' (length extra) (nd Z) (Nd [] (fun _ => (-1)%Z))
           (map (fun t => row t r') masks) (map (fun e => Nd (sh e) (fun _ => (-1)%Z)) extra) a) as [_ ->]; auto; try (rewrite map_length; auto).
        rewrite nth_map_in with (dx := Nd [] (fun _ => (-1)%Z)) by lia. rewrite Hmn by auto. cbn [row at_].
        rewrite (mask_sparse _ Em). destruct (pad_rows_spec (-1)%Z _ Hms Hle) as [_ Hat]. apply Hat; auto.
      + rewrite HB. fold f in C3. rewrite C3. destruct (Ht a Ha) as [H1 _]. apply H1; auto.
    - right. split; [auto|]. split.
      + rewrite HMM. rewrite Hnth by (rewrite map_length; auto).
        rewrite nth_map_in with (dx := nd0) by auto. reflexivity.
      + rewrite HB. apply C2. auto. }
  unfold step_ok. split; [reflexivity|]. rewrite Hso. split; [|split; [reflexivity|split]].
  - exists M. cbn [jdata jidx]. split; [exact Hs|]. split; [reflexivity|]. intros r' p Hr' Hp.
    destruct (HV r' p Hr' Hp) as [(a & m & Ha & Em & Hpa & Hin & -> & ->)|(_ & -> & ->)]; [|split; auto; lia].
    destruct (HA a Ha) as (m' & Em' & Hms & Hd & Hle & HL & Hran). rewrite Em in Em'. injection Em' as <-.
    destruct (Nat.ltb_spec r' (rows (jdata (ljac (nth a args la0))))); [apply Hran; auto|split; auto; lia].
  - intros i p Hp. rewrite (@jent_sparse _ _ _ mm) by reflexivity. cbn [jdata]. rewrite (rows_cons _ Hs).
    destruct (@iop_chain g mg extra (xs_of args) p (fun a q => jent (ljac (nth a args la0)) i q) n' Hm Hxl Hg Hp) as [C1 C2].
    unfold dspec. fold f in C1, C2.
    destruct (Hg p Hp) as [Hg1 _]. rewrite map_length in Hg1. rewrite (merge_length (xs_of args) extra Hm) in Hg1 by auto.
    destruct (merge_place Hm Hg1) as [(a & Ha & Hpa)|(e & He' & Hno & _)].
    + destruct (C1 a Ha Hpa) as [-> C4].
      destruct (HA a Ha) as (m & Em & Hms & Hd & Hle & HL & Hran). rewrite (jent_sparse _ _ _ Em).
      rewrite (@sumn_ge _ _ (rows (jdata (ljac (nth a args la0)))) M); [|exact Hle|].
      2:{ intros r' Hr1 Hr2.
        destruct (HV r' p Hr2 Hp) as [(b & m' & Hb & _ & Hpb & _ & E1 & E2)|(_ & E1 & E2)]; rewrite E2; [|destruct (Z.eqb _ _); auto].
        assert (b = a) by (apply (@posof_inj mg n' (length extra)); auto; congruence). subst b.
        destruct (Nat.ltb_spec r' (rows (jdata (ljac (nth a args la0))))); [lia|]. destruct (Z.eqb _ _); auto. }
      apply sumn_ext. intros r' Hr'.
      destruct (HV r' p ltac:(lia) Hp) as [(b & m' & Hb & Em' & Hpb & _ & -> & ->)|(Hall & _)].
      * assert (b = a) by (apply (@posof_inj mg n' (length extra)); auto; congruence). subst b.
        rewrite Em in Em'. injection Em' as <-. destruct (Nat.ltb_spec r' (rows (jdata (ljac (nth a args la0))))); [auto|lia].
      * exfalso. apply (Hall a); auto.
    + rewrite C2 by auto. apply sumn_zero. intros r' Hr'.
      destruct (HV r' p Hr' Hp) as [(b & m' & Hb & Em' & Hpb & _)|(_ & -> & ->)].
      * exfalso. apply (Hno b); auto.
      * destruct (Z.eqb _ _); auto.
  - intros p Hp. unfold lastrow, row. cbn [at_]. rewrite Hry. replace (M + 1 - 1)%nat with M by lia.
    unfold yt. rewrite vmap_jvp_at by congruence. apply chain1_ext. intros a q Ha Hq.
    rewrite Hxl in Ha. destruct (Ht a Ha) as [_ H2]. apply H2.
Qed.
End I.
