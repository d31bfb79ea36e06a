(* DiagFacts.v : sparse_diag_jvp (elementwise operations on sparse Jacobians) is the chain rule *)
From Verif Require Export BcastFacts.
From Coq Require Import ZifyBool.
Set Implicit Arguments.

Section D.
Context {A : Type} {RA : CRing A}.
Add Ring Aring5 : (@rth A RA).
Open Scope cr_scope.

Definition rows_of (args : list (lapl A)) : list nat := map (fun a => rows (jdata (ljac a))) args.
Lemma rows_of_length (args : list (lapl A)) : length (rows_of args) = length args.
Proof. apply map_length. Qed.
Lemma rows_of_nth (args : list (lapl A)) a : (a < length args)%nat ->
  nth a (rows_of args) 0%nat = rows (jdata (ljac (nth a args la0))).
Proof. intros H. unfold rows_of. rewrite nth_map_in with (dx := la0) by auto. reflexivity. Qed.

Lemma jwf_sparse n s J m : jwf n s J -> jidx J = Some m ->
  sh (jdata J) = rows (jdata J) :: s /\ sh m = rows (jdata J) :: s /\
  forall r p, (r < rows (jdata J))%nat -> inb p s ->
    (-1 <= at_ m (r :: p) < Z.of_nat n)%Z /\ ((at_ m (r :: p) < 0)%Z -> at_ (jdata J) (r :: p) = 0).
Proof.
  intros (k & Hk & H) E. rewrite E in H. destruct H as [Hm H]. rewrite (rows_cons _ Hk). auto.
Qed.
Lemma jent_sparse J m i p : jidx J = Some m -> jent J i p =
  sumn (rows (jdata J)) (fun r => if Z.eqb (at_ m (r :: p)) (Z.of_nat i) then at_ (jdata J) (r :: p) else 0) :> A.
Proof. intros E. unfold jent. rewrite E. reflexivity. Qed.
Lemma mask_sparse (J : jac A) m : jidx J = Some m -> mask J = m.
Proof. intros E. unfold mask. rewrite E. auto. Qed.
Lemma all_weak_nth (args : list (lapl A)) a : all_weak args = true -> (a < length args)%nat ->
  exists m, jidx (ljac (nth a args la0)) = Some m.
Proof.
  intros H Ha. unfold all_weak in H. rewrite forallb_forall in H. specialize (H _ (nth_In _ la0 Ha)).
  unfold weak in H. destruct (jidx (ljac (nth a args la0))); [eauto|discriminate].
Qed.

(* the list of rows making up the tangent of argument j *)
Lemma one_hot_spec n args j : (forall a, In a args -> awf n a) -> (j < length args)%nat ->
  let a := nth j args la0 in
  let T := one_hot_tangent args j a in
  sh T = (list_sum (rows_of args) + 1)%nat :: sh (lx a) /\
  (forall b r q, (b < length args)%nat -> (r < nth b (rows_of args) 0%nat)%nat ->
     at_ T ((off (rows_of args) b + r)%nat :: q) = if Nat.eqb b j then at_ (jdata (ljac a)) (r :: q) else 0) /\
  (forall q, at_ T (list_sum (rows_of args) :: q) = at_ (llap a) q).
Proof.
  intros Hwf Hj a T.
  assert (awf n a) as [(k & Hk & _) Hl] by (apply Hwf, nth_In; auto).
  set (F := fun ib : nat * lapl A => let (i, b) := ib in
      if Nat.eqb i j then jdata (ljac a) else Nd (rows (jdata (ljac b)) :: tl (sh (jdata (ljac a)))) (fun _ => 0)).
  set (L := map F (combine (seq 0 (length args)) args)).
  assert (T = concat0 0 (L ++ [expand0 (llap a)])) as ET by reflexivity.
  assert (length L = length args) as HL.
  { unfold L. rewrite map_length, combine_length, seq_length. lia. }
  assert (forall b, (b < length args)%nat -> nth b L nd0 = F (b, nth b args la0)) as HLn.
  { intros b Hb. unfold L. rewrite nth_map_in with (dx := (0%nat, la0)) by (rewrite combine_length, seq_length; lia).
    rewrite combine_nth by (rewrite seq_length; auto). rewrite seq_nth by auto. reflexivity. }
  assert (map rows L = rows_of args) as HR.
  { apply nth_ext with (d := 0%nat) (d' := 0%nat); [rewrite map_length, rows_of_length; auto|].
    intros b Hb. rewrite map_length, HL in Hb. rewrite nth_map_in with (dx := nd0) by lia.
    rewrite HLn, rows_of_nth by auto. unfold F. destruct (Nat.eqb_spec b j) as [->|]; reflexivity. }
  assert (rows (expand0 (llap a)) = 1%nat) as H1 by reflexivity.
  assert (list_sum (map rows (L ++ [expand0 (llap a)])) = list_sum (rows_of args) + 1)%nat as HS.
  { rewrite map_app, list_sum_app, HR. cbn [map list_sum fold_right]. lia. }
  split; [|split].
  - rewrite ET. cbn [concat0 sh]. rewrite HS. f_equal.
    destruct L as [|x L']; [cbn in HL; lia|]. cbn [app hd].
    specialize (HLn 0%nat ltac:(lia)). cbn [nth] in HLn. subst x. unfold F.
    destruct (Nat.eqb 0 j); cbn [sh tl]; rewrite Hk; reflexivity.
  - intros b r q Hb Hr. rewrite ET. cbn [concat0 at_ hd tl].
    assert (off (rows_of args) b = off (map rows (L ++ [expand0 (llap a)])) b) as Eo.
    { unfold off. rewrite map_app, HR. rewrite firstn_app. rewrite rows_of_length.
      replace (b - length args)%nat with 0%nat by lia. rewrite app_nil_r. reflexivity. }
    assert (nth b (L ++ [expand0 (llap a)]) nd0 = F (b, nth b args la0)) as En.
    { rewrite app_nth1 by lia. apply HLn; auto. }
    rewrite Eo. rewrite (@cat_at_off _ _ _ b r q nd0).
    + rewrite En. unfold F. destruct (Nat.eqb b j); reflexivity.
    + rewrite app_length. cbn. lia.
    + rewrite En. rewrite rows_of_nth in Hr by auto. unfold F. destruct (Nat.eqb_spec b j) as [->|]; auto.
  - intros q. rewrite ET. cbn [concat0 at_ hd tl].
    pose proof (@cat_at_off A 0 (L ++ [expand0 (llap a)]) (length args) 0%nat q nd0) as Hc.
    rewrite Nat.add_0_r in Hc.
    assert (off (map rows (L ++ [expand0 (llap a)])) (length args) = list_sum (rows_of args)) as Eo.
    { unfold off. rewrite map_app, HR. rewrite firstn_app, rows_of_length, Nat.sub_diag. cbn [firstn map].
      rewrite app_nil_r. rewrite firstn_all2 by (rewrite rows_of_length; auto). auto. }
    rewrite Eo in Hc. rewrite Hc.
    + rewrite app_nth2 by lia. rewrite HL, Nat.sub_diag. reflexivity.
    + rewrite app_length. cbn. lia.
    + rewrite app_nth2 by lia. rewrite HL, Nat.sub_diag. cbn. lia.
Qed.

Definition one_hots (args : list (lapl A)) : list (nd A) :=
  map (fun ja => one_hot_tangent args (fst ja) (snd ja)) (combine (seq 0 (length args)) args).
Lemma one_hots_length (args : list (lapl A)) : length (one_hots args) = length args.
Proof. unfold one_hots. rewrite map_length, combine_length, seq_length. lia. Qed.
Lemma one_hots_nth (args : list (lapl A)) j : (j < length args)%nat ->
  nth j (one_hots args) nd0 = one_hot_tangent args j (nth j args la0).
Proof.
  intros H. unfold one_hots. rewrite nth_map_in with (dx := (0%nat, la0)) by (rewrite combine_length, seq_length; lia).
  rewrite combine_nth by (rewrite seq_length; auto). rewrite seq_nth by auto. reflexivity.
Qed.

(* what both ways of computing the row-wise derivative must deliver *)
Definition rowwise (f : op A) (args : list (lapl A)) (g l : nd A) : Prop :=
  let so := sh (o_fwd f (xs_of args)) in
  sh g = list_sum (rows_of args) :: so /\ sh l = so /\
  (forall a r p, (a < length args)%nat -> (r < nth a (rows_of args) 0%nat)%nat -> inb p so ->
     let q := bproj (sh (lx (nth a args la0))) p in
     at_ g ((off (rows_of args) a + r)%nat :: p) =
     o_d f (xs_of args) p a q * at_ (jdata (ljac (nth a args la0))) (r :: q)) /\
  (forall p, inb p so -> at_ l p = lspec f args p).

Lemma one_hot_rowwise n f args : (forall a, In a args -> awf n a) ->
  elementwise f (xs_of args) ->
  let yt := vmap_jvp f (xs_of args) (list_sum (rows_of args) + 1) (one_hots args) in
  rowwise f args (butlast yt) (lastrow yt).
Proof.
  intros Hwf He yt. unfold rowwise.
  assert (rows yt = list_sum (rows_of args) + 1)%nat as Hry by reflexivity.
  assert (sh (butlast yt) = list_sum (rows_of args) :: sh (o_fwd f (xs_of args))) as Hs.
  { unfold butlast. rewrite Hry. cbn [sh]. replace (list_sum (rows_of args) + 1 - 1)%nat with (list_sum (rows_of args)) by lia. reflexivity. }
  split; [auto|]. split; [reflexivity|]. split.
  - intros a r p Ha Hr Hp. cbn [butlast at_]. unfold yt.
    rewrite vmap_jvp_at by (rewrite one_hots_length, xs_length; auto).
    rewrite chain1_elem by auto. rewrite xs_length.
    rewrite (@sumn_single _ _ (length args) a); [|auto|].
    2:{ intros b Hb Hn. cbn zeta. rewrite one_hots_nth by auto.
        destruct (@one_hot_spec n args b Hwf Hb) as (_ & H & _). rewrite H by auto.
        destruct (Nat.eqb_spec a b); [congruence|ring]. }
    cbn zeta. rewrite one_hots_nth by auto. destruct (@one_hot_spec n args a Hwf Ha) as (_ & H & _).
    rewrite H by auto. rewrite Nat.eqb_refl. rewrite xs_nth by auto. reflexivity.
  - intros p Hp. unfold lastrow, row. cbn [at_]. rewrite Hry.
    replace (list_sum (rows_of args) + 1 - 1)%nat with (list_sum (rows_of args)) by lia. unfold yt.
    rewrite vmap_jvp_at by (rewrite one_hots_length, xs_length; auto). apply chain1_ext. intros a q Ha Hq.
    rewrite xs_length in Ha. rewrite one_hots_nth by auto.
    destruct (@one_hot_spec n args a Hwf Ha) as (_ & _ & H). apply H.
Qed.

Lemma vjp_rowwise n f a g l : awf n a -> elementwise f [lx a] -> sh (o_fwd f [lx a]) = sh (lx a) ->
  bin rmul (vjp1 f (lx a) (ones_like (o_fwd f [lx a]))) (jdata (ljac a)) = Some g ->
  bin rmul (vjp1 f (lx a) (ones_like (o_fwd f [lx a]))) (llap a) = Some l ->
  rowwise f [a] g l.
Proof.
  intros [(k & Hk & _) Hl] He Hs Eg El.
  set (j := vjp1 f (lx a) (ones_like (o_fwd f [lx a]))) in *.
  destruct (@bin_row_mul _ _ j (jdata (ljac a)) k (sh (lx a))) as (g' & Eg' & Sg & Ag); auto.
  destruct (@bin_same _ rmul j (llap a) (sh (lx a))) as (l' & El' & Sl & Al); auto.
  rewrite Eg in Eg'. inversion Eg'; subst g'. rewrite El in El'. inversion El'; subst l'.
  unfold rowwise. cbn [xs_of map rows_of]. rewrite (rows_cons _ Hk), Hs. cbn [list_sum fold_right]. rewrite Nat.add_0_r.
  split; [auto|]. split; [auto|]. split.
  - intros b r p Hb Hr Hp. cbn [length] in Hb. assert (b = 0)%nat by lia. subst b.
    cbn [nth] in *. unfold off. cbn [firstn list_sum fold_right plus].
    rewrite Ag by auto. rewrite bproj_same by auto. unfold j. rewrite vjp1_elem by auto. reflexivity.
  - intros p Hp. unfold lspec. cbn [xs_of map]. rewrite chain1_elem by (auto; rewrite Hs; auto).
    unfold sumn. cbn [length seq sumL nth]. rewrite bproj_same by auto.
    rewrite Al by auto. unfold j. rewrite vjp1_elem by auto. ring.
Qed.

(* the mask step: concatenated masks, unique rows and the segment sum *)
Lemma bmj_spec (m : nd Z) (g : nd A) k t s m2 : sh m = k :: t -> sh g = k :: s ->
  broadcast_mask_to_jacobian m g = Some m2 ->
  bto t s /\ sh m2 = k :: s /\ forall r p, inb p s -> at_ m2 (r :: p) = at_ m (r :: bproj t p).
Proof.
  intros Hm Hg E. unfold broadcast_mask_to_jacobian in E. rewrite (rows_cons _ Hm), (rows_cons _ Hg) in E.
  rewrite Nat.eqb_refl in E. cbn [negb] in E. rewrite Hm, Hg in E. cbn [tl] in E.
  destruct (bshape2 t s) as [b|] eqn:Eb; [|discriminate]. cbn [bind] in E.
  destruct (sheq b s) eqn:Es; [|discriminate]. apply sheq_eq in Es. subst b. inversion E; subst; clear E.
  split; [apply (bshape2_ub _ _ Eb)|]. split; [reflexivity|]. intros r p Hp. cbn. rewrite Hm. reflexivity.
Qed.
Lemma bmj_intro (m : nd Z) (g : nd A) k t s : sh m = k :: t -> sh g = k :: s -> bto t s ->
  exists m2, broadcast_mask_to_jacobian m g = Some m2.
Proof.
  intros Hm Hg Hb. unfold broadcast_mask_to_jacobian. rewrite (rows_cons _ Hm), (rows_cons _ Hg).
  rewrite Nat.eqb_refl. cbn [negb]. rewrite Hm, Hg. cbn [tl]. rewrite bshape2_bto_l by auto. cbn [bind].
  replace (sheq s s) with true by (symmetry; apply sheq_eq; auto). eauto.
Qed.

(* the value of the sum over all stored rows of all arguments *)
Lemma rowwise_dspec n f args g l i p :
  (forall a, In a args -> awf n a) -> all_weak args = true -> elementwise f (xs_of args) ->
  rowwise f args g l -> inb p (sh (o_fwd f (xs_of args))) ->
  dspec f args i p = sumn (length args) (fun a => sumn (nth a (rows_of args) 0%nat) (fun r =>
     if Z.eqb (at_ (mask (ljac (nth a args la0))) (r :: bproj (sh (lx (nth a args la0))) p)) (Z.of_nat i)
     then at_ g ((off (rows_of args) a + r)%nat :: p) else 0)).
Proof.
  intros Hwf Hw He (Hg & Hl & Hrow & _) Hp. unfold dspec. rewrite chain1_elem by auto. rewrite xs_length.
  apply sumn_ext. intros a Ha. cbn zeta. rewrite xs_nth by auto.
  destruct (all_weak_nth _ Hw Ha) as [m Hm]. rewrite (mask_sparse _ Hm), (jent_sparse _ _ _ Hm).
  rewrite rows_of_nth by auto. unfold sumn. rewrite <- sumL_scale. apply sumL_ext. intros r Hr. apply in_seq in Hr.
  rewrite Hrow; [|auto|rewrite rows_of_nth by auto; lia|auto].
  destruct (Z.eqb _ _); [reflexivity|ring].
Qed.

Theorem sparse_diag_sound n f args fl ax r : (0 < n)%nat -> args <> [] -> (forall a, In a args -> awf n a) ->
  elementwise f (xs_of args) ->
  sparse_diag_jvp f args fl ax = Some r ->
  step_ok n f args r /\ weak (snd (fst r)) = all_weak args.
Proof.
  intros Hn Hne Hwf He H. unfold sparse_diag_jvp in H.
  destruct (all_weak args) eqn:Hw; cbn [negb] in H; [|apply (@dense_jvp_sound _ _ n f args fl ax); auto].
  fold (rows_of args) in H. fold (one_hots args) in H.
  set (so := sh (o_fwd f (xs_of args))) in *.
  (* step 1: the row-wise derivative *)
  match type of H with bind ?o _ = _ => destruct o as [[g l]|] eqn:Egl; [|discriminate] end. cbn [bind] in H.
  assert (rowwise f args g l) as HR.
  { unfold so in *. pose proof (@one_hot_rowwise n f args Hwf He) as Hoh. cbn zeta in Hoh.
    destruct args as [|a [|b args']]; [congruence| |].
    - destruct (sheq (sh (o_fwd f (xs_of [a]))) (sh (lx a))) eqn:Es.
      + apply sheq_eq in Es.
        destruct (bin rmul (vjp1 f (lx a) (ones_like (o_fwd f (xs_of [a])))) (jdata (ljac a))) as [g'|] eqn:Eg; [|discriminate].
        cbn [bind] in Egl.
        destruct (bin rmul (vjp1 f (lx a) (ones_like (o_fwd f (xs_of [a])))) (llap a)) as [l'|] eqn:El; [|discriminate].
        cbn [bind] in Egl. inversion Egl; subst. apply (@vjp_rowwise n f a g l); auto. apply Hwf; cbn; auto.
      + injection Egl as <- <-. exact Hoh.
    - injection Egl as <- <-. exact Hoh. }
  clear Egl.
  pose proof HR as (Hg & Hl & Hrow & Hlap).
  set (K := list_sum (rows_of args)) in *.
  (* step 2: masks *)
  match type of H with bind ?o _ = _ => destruct o as [[rm g2]|] eqn:Erm; [|discriminate] end. cbn [bind] in H.
  assert (exists U post, sh rm = U :: post /\ sh g2 = U :: so /\
     (bto post so -> (forall i p, inb p so ->
        sumn U (fun j => if Z.eqb (at_ rm (j :: bproj post p)) (Z.of_nat i) then at_ g2 (j :: p) else 0) = dspec f args i p) /\
      (forall j p, (j < U)%nat -> inb p so -> (-1 <= at_ rm (j :: bproj post p) < Z.of_nat n)%Z /\
         ((at_ rm (j :: bproj post p) < 0)%Z -> at_ g2 (j :: p) = 0)))) as (U & post & Hrm & Hg2 & Hspec).
  { destruct args as [|a [|b args']]; [congruence| |].
    - (* one argument *)
      injection Erm as <- <-. destruct (all_weak_nth [a] Hw (Nat.lt_0_1)) as [m Hm]. cbn [nth] in Hm.
      assert (awf n a) as [Hj _] by (apply Hwf; cbn; auto).
      destruct (jwf_sparse Hj Hm) as (Hd & Hms & Hran). rewrite (mask_sparse _ Hm).
      assert (K = rows (jdata (ljac a))) as HK by (unfold K; cbn; lia).
      exists (rows (jdata (ljac a))), (sh (lx a)). split; [auto|]. split; [rewrite Hg, HK; auto|].
      intros Hb. split.
      + intros i p Hp. rewrite (@rowwise_dspec n f [a] g l i p); auto.
        unfold sumn at 2. cbn [length seq sumL nth rows_of map]. unfold off. cbn [firstn list_sum fold_right plus].
        rewrite (mask_sparse _ Hm). cbn beta. ring.
      + intros j p Hj' Hp. specialize (Hran j (bproj (sh (lx a)) p) Hj' (bproj_inb Hb Hp)). destruct Hran as [Hr1 Hr2].
        split; auto. intros Hlt. specialize (Hrow 0%nat j p). cbn [nth length rows_of map] in Hrow.
        unfold off in Hrow. cbn [firstn list_sum fold_right plus] in Hrow. rewrite Hrow by (auto; lia).
        rewrite Hr2 by auto. ring.
    - (* several arguments *)
      set (args := a :: b :: args') in *.
      destruct (bexcs (map (fun a => mask (ljac a)) args)) as [ms|] eqn:Ems; [|discriminate]. cbn [bind] in Erm.
      unfold bexcs in Ems. destruct (bshapes (map (fun a => tl (sh a)) (map (fun a => mask (ljac a)) args))) as [post|] eqn:Ep; [|discriminate].
      cbn [bind] in Ems. injection Ems as <-.
      destruct (bshapes_spec _ Ep) as [Hub _].
      set (ms := map (bexc1 post) (map (fun a => mask (ljac a)) args)) in *.
      assert (forall c, (c < length args)%nat -> exists m, jidx (ljac (nth c args la0)) = Some m /\
         sh m = rows (jdata (ljac (nth c args la0))) :: sh (lx (nth c args la0)) /\ bto (sh (lx (nth c args la0))) post /\
         nth c ms (Nd [] (fun _ => 0%Z)) = bexc1 post m /\
         forall r p, (r < rows (jdata (ljac (nth c args la0))))%nat -> inb p (sh (lx (nth c args la0))) ->
            (-1 <= at_ m (r :: p) < Z.of_nat n)%Z /\ ((at_ m (r :: p) < 0)%Z -> at_ (jdata (ljac (nth c args la0))) (r :: p) = 0)) as HM.
      { intros c Hc. destruct (all_weak_nth args Hw Hc) as [m Hm]. exists m. split; auto.
        assert (awf n (nth c args la0)) as [Hj _] by (apply Hwf, nth_In; auto).
        destruct (jwf_sparse Hj Hm) as (Hd & Hms & Hran). split; [auto|]. split; [|split; [|auto]].
        - apply Hub. rewrite map_map. apply in_map_iff. exists (nth c args la0). split; [|apply nth_In; auto].
          rewrite (mask_sparse _ Hm), Hms. reflexivity.
        - unfold ms. rewrite map_map. rewrite nth_map_in with (dx := la0) by auto. rewrite (mask_sparse _ Hm). auto. }
      assert (map rows ms = rows_of args) as Hmr.
      { apply nth_ext with (d := 0%nat) (d' := 0%nat).
        - unfold ms. rewrite !map_length, rows_of_length. auto.
        - intros c Hc. unfold ms in Hc. rewrite !map_length in Hc. rewrite nth_map_in with (dx := Nd [] (fun _ => 0%Z)) by (unfold ms; rewrite !map_length; auto).
          destruct (HM c Hc) as (m & Hm & Hms & _ & -> & _). rewrite rows_of_nth by auto.
          rewrite (rows_cons _ (bexc1_sh post m)). apply (rows_cons _ Hms). }
      match type of Erm with context[concat0 ?d ?l] => change (concat0 d l) with (concat0 d ms) in Erm end.
      set (cm := concat0 (-1)%Z ms) in *.
      assert (sh cm = K :: post) as Hcm.
      { unfold cm. cbn [concat0 sh]. rewrite Hmr. fold K. f_equal. unfold ms, args. cbn [map hd]. rewrite bexc1_sh. reflexivity. }
      assert (forall c r p, (c < length args)%nat -> (r < nth c (rows_of args) 0%nat)%nat -> inb p so -> bto post so ->
         at_ cm ((off (rows_of args) c + r)%nat :: bproj post p) =
         at_ (mask (ljac (nth c args la0))) (r :: bproj (sh (lx (nth c args la0))) p)) as Hcat.
      { intros c r' p Hc Hr' Hp Hb. unfold cm. cbn [concat0 at_ hd tl]. rewrite <- Hmr.
        destruct (HM c Hc) as (m & Hm & Hms & Hbt & En & _). rewrite rows_of_nth in Hr' by auto.
        rewrite (@cat_at_off _ _ _ c r' _ (Nd [] (fun _ => 0%Z))).
        - rewrite En, (mask_sparse _ Hm). 
          pose proof (bto_length Hb) as HL1. pose proof (bto_length Hbt) as HL2. pose proof (inb_length Hp) as HL3.
          rewrite (bexc1_at _ _ _ Hms) by (auto; rewrite bproj_length by lia; lia).
          rewrite bproj_comp by (auto; lia). reflexivity.
        - unfold ms. rewrite !map_length. auto.
        - rewrite En. rewrite (rows_cons _ (bexc1_sh post m)), (rows_cons _ Hms). auto. }
      destruct (unique_rows cm) as [u inv] eqn:Eu. injection Erm as <- <-.
      destruct (unique_rows_spec Hcm Eu) as (U & Hu & Hinv & Huv & Hsur).
      exists U, post. split; [auto|]. split.
      { cbn [segment_sum sh]. rewrite Hg. cbn [tl]. rewrite (rows_cons _ Hu). reflexivity. }
      intros Hb.
      assert (forall p, inb p so -> inb (bproj post p) post) as Hbp by (intros; eapply bproj_inb; eauto).
      split.
      + intros i p Hp. cbn [segment_sum at_ hd tl].
        rewrite (sum_groups (K := K) (U := U) inv (fun j => Z.eqb (at_ u (j :: bproj post p)) (Z.of_nat i)) (fun r => at_ g (r :: p)) Hinv).
        rewrite (@rowwise_dspec n f args g l i p); auto. unfold K at 1. rewrite sumn_off. rewrite rows_of_length.
        apply sumn_ext. intros c Hc. apply sumn_ext. intros r' Hr'.
        rewrite Huv; [|apply off_lt; [rewrite rows_of_length; auto|auto]|auto].
        rewrite Hcat by auto. reflexivity.
      + intros j p Hj Hp. split.
        * destruct (Hsur j Hj) as (r' & Hr' & Hr''). rewrite Hr'' by auto.
          destruct (off_split (rows_of args) Hr') as (c & r2 & Hc & Hr2 & ->). rewrite rows_of_length in Hc.
          rewrite Hcat by auto. destruct (HM c Hc) as (m & Hm & Hms & Hbt & En & Hran). rewrite (mask_sparse _ Hm).
          rewrite rows_of_nth in Hr2 by auto. apply Hran; auto. eapply bproj_inb; [|exact Hp]. eapply bto_trans; eauto.
        * intros Hlt. cbn [segment_sum at_ hd tl]. apply sumn_zero. intros r' Hr'.
          destruct (Z.eqb_spec (Z.of_nat (inv r')) (Z.of_nat j)) as [Ej|]; auto.
          assert (inv r' = j) by lia. subst j. rewrite Huv in Hlt by auto.
          destruct (off_split (rows_of args) Hr') as (c & r2 & Hc & Hr2 & ->). rewrite rows_of_length in Hc.
          rewrite Hcat in Hlt by auto. rewrite Hrow by auto.
          destruct (HM c Hc) as (m & Hm & Hms & Hbt & En & Hran). rewrite (mask_sparse _ Hm) in Hlt.
          rewrite rows_of_nth in Hr2 by auto. destruct (Hran r2 (bproj (sh (lx (nth c args la0))) p)) as [_ Hz]; auto.
          { eapply bproj_inb; [|exact Hp]. eapply bto_trans; eauto. }
          rewrite Hz by auto. ring. }
  (* step 3: broadcast *)
  destruct (broadcast_mask_to_jacobian rm g2) as [rm2|] eqn:E2; [|discriminate]. cbn [bind] in H.
  destruct (sheq (sh g2) (sh rm2)); [|discriminate]. injection H as <-.
  destruct (bmj_spec _ _ Hrm Hg2 E2) as (Hb & Hs2 & Hat). destruct (Hspec Hb) as [H1 H2].
  split; [|reflexivity]. unfold step_ok. fold so. split; [reflexivity|]. split; [|split; [auto|split; [|auto]]].
  - exists U. cbn [jdata jidx]. split; auto. split; auto. intros j p Hj Hp. rewrite Hat by auto. auto.
  - intros i p Hp. rewrite (@jent_sparse _ rm2) by reflexivity. cbn [jdata]. rewrite (rows_cons _ Hg2).
    rewrite <- H1 by auto. apply sumn_ext. intros j Hj. rewrite Hat by auto. reflexivity.
Qed.
End D.
