(* OboFacts.v : sparse_jvp, one_by_one_jvp and get_jvp_function return the first-order chain rule *)
From Verif Require Export ReduceFacts IndexFacts.
From Coq Require Import ZifyBool.
Set Implicit Arguments.

Section O.
Context {A : Type} {RA : CRing A}.
Add Ring Aring9 : (@rth A RA).
Open Scope cr_scope.

Lemma jdistinct_jinv n s J : jwf n s J -> jrow1 J -> jdistinct J -> jinv J.
Proof.
  intros Hwf H1 Hd. unfold jinv, jrow1, weak, jdistinct in *. destruct (jidx J) as [m|] eqn:Em; [|exact I].
  destruct (jwf_sparse Hwf Em) as (Sd & Sm & _). intros k s' E. rewrite Sm in E. injection E as <- <-. split; [auto|].
  intros Hk Hall p Hp. destruct (Z.lt_ge_cases (at_ m (0%nat :: p)) 0) as [|Hge]; auto. exfalso.
  assert (0 = 1)%nat; [|lia]. apply (Hd _ _ Sm 0%nat 1%nat p); auto; try lia. rewrite (Hall 1%nat); auto.
Qed.
Lemma jinv_dense (J : jac A) : weak J = false -> jinv J.
Proof. unfold weak, jinv. destruct (jidx J); [discriminate|auto]. Qed.
Lemma jinv_row1 n s J : jwf n s J -> jinv J -> jrow1 J.
Proof.
  intros Hwf H Hw. unfold jinv, weak in *. destruct (jidx J) as [m|] eqn:Em; [|discriminate].
  destruct (jwf_sparse Hwf Em) as (Sd & Sm & _). apply (H _ _ Sm).
Qed.

Lemma np_eq_all_rows mk mj k l s : sh mk = l :: s -> sh mj = k :: s -> (k = l \/ k = 1%nat \/ l = 1%nat) ->
  same_idx k l s mj mk -> np_eq_all mk mj = Some true.
Proof.
  intros Sk Sj Hk Hs. unfold np_eq_all. rewrite Sk, Sj.
  assert (forall x m p, length p = length s -> bproj (m :: s) (x :: p) = (if Nat.eqb m 1 then 0%nat else x) :: bproj s p) as HB.
  { intros x m p Hp. unfold bproj. cbn [length]. rewrite Hp, !Nat.sub_diag. reflexivity. }
  assert (forall m, bto (1%nat :: s) (m :: s)) as H1.
  { intros m. exists [], (m :: s). split; auto. constructor; auto. clear. induction s; constructor; auto. }
  assert (exists M, bshape2 (l :: s) (k :: s) = Some (M :: s) /\ (M <= Nat.max k l)%nat /\ (k = 1 \/ k = M)%nat /\ (l = 1 \/ l = M)%nat) as (M & -> & HM & HMk & HMl).
  { destruct Hk as [->|[->| ->]].
    - exists l. rewrite bshape2_refl. split; auto. split; [lia|auto].
    - exists l. rewrite bshape2_bto_r by auto. split; auto. split; [lia|auto].
    - exists k. rewrite bshape2_bto_l by auto. split; auto. split; [lia|auto]. }
  cbn [bind]. f_equal. apply forallb_forall. intros i Hi. apply allix_spec in Hi.
  destruct i as [|r p]; [inversion Hi|]. apply inb_cons in Hi. destruct Hi as [Hr Hp].
  rewrite !HB by (apply inb_length; auto). rewrite bproj_same by auto. apply Z.eqb_eq. symmetry.
  apply Hs; auto.
  - destruct (Nat.eqb_spec k 1); [lia|]. destruct HMk; lia.
  - destruct (Nat.eqb_spec l 1); [lia|]. destruct HMl; lia.
Qed.

Lemma np_eq_all_same mk mj k l s : sh mk = l :: s -> sh mj = k :: s -> k <> l -> np_eq_all mk mj = Some true -> same_idx k l s mj mk.
Proof.
  intros SMK SMJ Hkl Eb. unfold np_eq_all in Eb. rewrite SMJ, SMK in Eb.
  destruct (bshape2 (l :: s) (k :: s)) as [w|] eqn:Ew; [|discriminate]. cbn [bind] in Eb. injection Eb as Eb.
  rewrite forallb_forall in Eb. intros r t p Hr Ht Hp.
  assert (forall x m, bproj (m :: s) (x :: p) = (if Nat.eqb m 1 then 0%nat else x) :: p) as HB.
  { intros x m. unfold bproj. cbn [length]. rewrite (inb_length Hp), Nat.sub_diag. cbn [skipn map2].
    pose proof (bproj_same Hp) as Hq. unfold bproj in Hq. rewrite (inb_length Hp), Nat.sub_diag in Hq. cbn [skipn] in Hq.
    rewrite Hq. auto. }
  assert (forall m, bto (1%nat :: s) (m :: s)) as H1.
  { intros m. exists [], (m :: s). split; auto. constructor; auto. clear. induction s; constructor; auto. }
  destruct (bshape2_rows _ _ _ Ew) as [Hc|[->| ->]]; [congruence| |].
  * rewrite bshape2_bto_l in Ew by auto. injection Ew as <-. assert (t = 0%nat) by lia. subst t.
    specialize (Eb (r :: p)). rewrite !HB in Eb. cbn [Nat.eqb] in Eb. destruct (Nat.eqb_spec k 1); [lia|].
    symmetry. apply Z.eqb_eq, Eb. apply allix_spec, inb_cons; auto.
  * rewrite bshape2_bto_r in Ew by auto. injection Ew as <-. assert (r = 0%nat) by lia. subst r.
    specialize (Eb (t :: p)). rewrite !HB in Eb. cbn [Nat.eqb] in Eb. destruct (Nat.eqb_spec l 1); [lia|].
    symmetry. apply Z.eqb_eq, Eb. apply allix_spec, inb_cons; auto.
Qed.
Lemma jent_allneg J m n s : jwf n s J -> jidx J = Some m -> (forall r p, (r < rows (jdata J))%nat -> inb p s -> (at_ m (r :: p) < 0)%Z) ->
  (forall i p, inb p s -> jent J i p = 0) /\ forall r p, (r < rows (jdata J))%nat -> inb p s -> at_ (jdata J) (r :: p) = 0.
Proof.
  intros Hwf Em Hneg. destruct (jwf_sparse Hwf Em) as (_ & _ & Hr). split.
  - intros i p Hp. rewrite (jent_sparse _ _ _ Em). apply sumn_zero. intros r Hr'. specialize (Hneg r p Hr' Hp).
    destruct (Z.eqb_spec (at_ m (r :: p)) (Z.of_nat i)); [lia|auto].
  - intros r p Hr' Hp. apply (Hr r p); auto.
Qed.

(* __add__ under the invariant *)
Theorem jadd_inv_sound J K n s R : (0 < n)%nat -> jwf n s J -> jwf n s K -> jadd J K = Some R ->
  (jinv J /\ jinv K) \/ weak J && weak K = false ->
  jwf n s R /\ (forall i p, inb p s -> jent R i p = jent J i p + jent K i p) /\ jinv R.
Proof.
  intros Hn HJ HK E Hor. destruct (weak J && weak K) eqn:Ew.
  - destruct Hor as [[IJ IK]|]; [|discriminate]. apply andb_true_iff in Ew. destruct Ew as [WJ WK].
    unfold weak in WJ, WK. destruct (jidx J) as [mj|] eqn:EJ; [|discriminate]. destruct (jidx K) as [mk|] eqn:EK; [|discriminate].
    destruct (jwf_sparse HJ EJ) as (SJ & SMJ & RJ), (jwf_sparse HK EK) as (SK & SMK & RK).
    set (k := rows (jdata J)) in *. set (l := rows (jdata K)) in *.
    unfold jinv in IJ, IK. rewrite EJ in IJ. rewrite EK in IK. destruct (IJ _ _ SMJ) as [Ik1 Ik], (IK _ _ SMK) as [Il1 Il].
    pose proof E as E0. unfold jadd in E. rewrite EJ, EK in E. destruct (np_eq_all mk mj) as [b|] eqn:Eb; [|discriminate]. cbn [bind] in E.
    assert (k = l \/ k = 1%nat \/ l = 1%nat) as Hkl.
    { unfold np_eq_all in Eb. rewrite SMJ, SMK in Eb. destruct (bshape2 (l :: s) (k :: s)) as [w|] eqn:Ebs; [|discriminate].
      destruct (bshape2_rows _ _ _ Ebs) as [?|[?|?]]; auto. }
    destruct (Nat.eq_dec k l) as [Hk|Hk].
    + assert (k = l) as Hk' by auto. destruct (jadd_sparse_sound HJ HK EJ EK E0) as (W & HR & HS); [left; exact Hk|].
      split; [auto|]. split; [auto|]. destruct b.
      * unfold bin in E. rewrite SJ, SK in E. fold k l in E. rewrite <- Hk in E. rewrite bshape2_refl in E. cbn [bind] in E.
        rewrite SMJ, SMK, <- Hk, bshape2_refl in E. cbn [bind] in E. injection E as <-. unfold jinv. cbn [jidx].
        intros k' s' E'. injection E' as <- <-. split; [auto|]. intros H2 Hall p Hp.
        assert (forall r p, (r < k)%nat -> inb p s -> at_ (broadcast_to (k :: s) mj) (r :: p) = at_ mj (r :: p)) as Hbm.
        { intros r q Hr Hq. cbn [broadcast_to at_]. rewrite SMJ, bproj_same; auto. apply inb_cons; auto. }
        rewrite Hbm by (auto; lia). apply Ik; auto. intros r q Hr Hq. rewrite <- !Hbm by (auto; lia). apply Hall; auto.
      * injection E as <-. unfold jinv. cbn [jidx]. intros k' s' E'. rewrite (concat2_sh _ _ _ SMJ SMK) in E'. injection E' as <- <-.
        split; [lia|]. intros _ Hall. exfalso.
        rewrite (@np_eq_all_rows mk mj k l s SMK SMJ Hkl) in Eb; [discriminate|].
        intros r t p Hr Ht Hp. pose proof (Hall r p ltac:(lia) Hp) as G1. pose proof (Hall (k + t)%nat p ltac:(lia) Hp) as G2.
        rewrite !(concat2_at _ _ _ _ SMJ SMK) in G1 by lia. rewrite !(concat2_at _ _ _ _ SMJ SMK) in G2 by lia.
        destruct (Nat.ltb_spec r k); [|lia]. destruct (Nat.ltb_spec 0 k); [|lia]. destruct (Nat.ltb_spec (k + t) k); [lia|].
        replace (k + t - k)%nat with t in G2 by lia. congruence.
    + destruct b.
      * (* broadcasting: everything is -1 *)
        assert (same_idx k l s mj mk) as Hsame by (apply (@np_eq_all_same mk mj k l s SMK SMJ); auto).
        assert (forall p, inb p s -> (at_ mj (0%nat :: p) < 0)%Z /\ (at_ mk (0%nat :: p) < 0)%Z) as Hneg.
        { intros p Hp. rewrite (Hsame 0%nat 0%nat p) by auto. split.
          all: destruct (Nat.le_gt_cases 2 l) as [L|L].
          all: try (apply Il; auto; intros r q Hr Hq; rewrite <- (Hsame 0%nat r q), <- (Hsame 0%nat 0%nat q); auto).
          all: rewrite <- (Hsame 0%nat 0%nat p) by auto; apply Ik; auto; try lia; intros r q Hr Hq; rewrite (Hsame r 0%nat q), (Hsame 0%nat 0%nat q); auto. }
        assert (forall r p, (r < k)%nat -> inb p s -> (at_ mj (r :: p) < 0)%Z) as NJ.
        { intros r p Hr Hp. rewrite (Hsame r 0%nat p) by auto. apply Hneg; auto. }
        assert (forall r p, (r < l)%nat -> inb p s -> (at_ mk (r :: p) < 0)%Z) as NK.
        { intros r p Hr Hp. rewrite <- (Hsame 0%nat r p) by auto. apply Hneg; auto. }
        destruct (jent_allneg HJ EJ NJ) as [ZJ DJ]. destruct (jent_allneg HK EK NK) as [ZK DK]. fold k in DJ. fold l in DK.
        assert (forall m, bto (1%nat :: s) (m :: s)) as H1.
        { intros m. exists [], (m :: s). split; auto. constructor; auto. clear. induction s; constructor; auto. }
        assert (exists M, bshape2 (k :: s) (l :: s) = Some (M :: s) /\ (1 <= M)%nat /\ (k = 1 \/ k = M)%nat /\ (l = 1 \/ l = M)%nat) as (M & EM & HM1 & HMk & HMl).
        { destruct Hkl as [?|[Hk1|Hl1]]; [congruence| |].
          - exists l. rewrite Hk1, bshape2_bto_l by auto. auto.
          - exists k. rewrite Hl1, bshape2_bto_r by auto. auto. }
        unfold bin in E. rewrite SJ, SK, EM in E. cbn [bind] in E. rewrite SMJ, SMK, EM in E. cbn [bind] in E. injection E as <-.
        assert (forall x m p, inb p s -> bproj (m :: s) (x :: p) = (if Nat.eqb m 1 then 0%nat else x) :: p) as HB.
        { intros x m p Hp. unfold bproj. cbn [length]. rewrite (inb_length Hp), Nat.sub_diag. cbn [skipn map2]. f_equal.
          pose proof (bproj_same Hp) as Hq. unfold bproj in Hq. rewrite (inb_length Hp), Nat.sub_diag in Hq. exact Hq. }
        assert (forall r, (r < M)%nat -> ((if Nat.eqb k 1 then 0%nat else r) < k /\ (if Nat.eqb l 1 then 0%nat else r) < l)%nat) as Hlt.
        { intros r Hr. destruct (Nat.eqb_spec k 1), (Nat.eqb_spec l 1); lia. }
        set (R := Jac _ _).
        assert (jwf n s R) as HR.
        { exists M. unfold R. cbn [jdata jidx sh]. split; auto. split; [reflexivity|]. intros r p Hr Hp. cbn [broadcast_to at_].
          rewrite SMJ. rewrite !HB by auto. destruct (Hlt r Hr) as [L1 L2]. split; [apply RJ; auto|]. intros _. rewrite DJ, DK by auto. ring. }
        assert (forall r p, (r < M)%nat -> inb p s -> (at_ (broadcast_to (M :: s) mj) (r :: p) < 0)%Z) as NR.
        { intros r p Hr Hp. cbn [broadcast_to at_]. rewrite SMJ, HB by auto. apply NJ; auto. apply Hlt; auto. }
        destruct (@jent_allneg R _ n s HR eq_refl) as [ZR _]; [exact NR|].
        split; [auto|]. split; [intros i p Hp; rewrite ZR, ZJ, ZK by auto; ring|].
        unfold jinv, R. cbn [jidx]. intros k' s' E'. injection E' as <- <-. split; [auto|]. intros; apply NR; auto.
      * injection E as <-. destruct (concat_jac_spec HJ HK EJ EK) as [C1 C2]. split; [exact C1|]. split; [exact C2|].
        unfold jinv. cbn [jidx]. intros k' s' E'. rewrite (concat2_sh _ _ _ SMJ SMK) in E'. injection E' as <- <-.
        split; [lia|]. intros _ Hall. exfalso.
        rewrite (@np_eq_all_rows mk mj k l s SMK SMJ Hkl) in Eb; [discriminate|].
        intros r t p Hr Ht Hp. pose proof (Hall r p ltac:(lia) Hp) as G1. pose proof (Hall (k + t)%nat p ltac:(lia) Hp) as G2.
        rewrite !(concat2_at _ _ _ _ SMJ SMK) in G1 by lia. rewrite !(concat2_at _ _ _ _ SMJ SMK) in G2 by lia.
        destruct (Nat.ltb_spec r k); [|lia]. destruct (Nat.ltb_spec 0 k); [|lia]. destruct (Nat.ltb_spec (k + t) k); [lia|].
        replace (k + t - k)%nat with t in G2 by lia. congruence.
  - assert (nonempty J /\ nonempty K) as [NJ NK].
    { assert (forall X, dense_array X <> None -> nonempty X) as G.
      { intros X HX. unfold nonempty. unfold dense_array, max_n in HX. destruct (jidx X) as [m|] eqn:EX; auto.
        destruct (flat m) as [|z l] eqn:Ef; [cbn in HX; congruence|].
        assert (In z (flat m)) as Hz by (rewrite Ef; cbn; auto). apply flat_In in Hz. destruct Hz as (i & Hi & _). eauto. }
      unfold jadd in E. assert ((let* a := dense_array J in let* b := dense_array K in let* d := add_jacobians a b in Some (Jac d None)) = Some R) as E'.
      { unfold weak in Ew. destruct (jidx J), (jidx K); auto. discriminate. }
      split; apply G; intros C; rewrite C in E'; [discriminate|]. destruct (dense_array J); discriminate. }
    destruct (jadd_dense HJ HK NJ NK Hn Ew) as (R' & E' & W & HR & HS). rewrite E in E'. injection E' as <-.
    split; [auto|]. split; [auto|]. apply jinv_dense; auto.
Qed.

Lemma bproj_surj t s p q : bto t s -> inb p s -> inb q t -> exists p', inb p' s /\ bproj t p' = q.
Proof.
  intros (s0 & s1 & -> & HF) Hp Hq. unfold inb in Hp. apply Forall2_app_inv_r in Hp. destruct Hp as (p0 & p1 & H0 & H1 & ->).
  assert (exists p', Forall2 lt p' s1 /\ map2 (fun n x => if Nat.eqb n 1 then 0%nat else x) t p' = q) as (p' & Hp' & E).
  { clear H0. revert p1 H1 q Hq. induction HF as [|a b t s1 Hab HF IH]; intros p1 H1 q Hq.
    - inversion Hq; subst. inversion H1; subst. exists []. split; auto.
    - inversion Hq as [|x ? q' ? Hx Hq']; subst. inversion H1 as [|y ? p1' ? Hy Hp1]; subst. destruct (IH p1' Hp1 q' Hq') as (p' & P1 & P2).
      destruct (Nat.eqb_spec a 1) as [->|Ha].
      + exists (y :: p'). split; [constructor; auto|]. cbn. rewrite P2. f_equal. lia.
      + destruct Hab as [->|]; [|congruence]. exists (x :: p'). split; [constructor; auto|]. cbn. rewrite P2.
        destruct (Nat.eqb_spec b 1); [congruence|auto]. }
  exists (p0 ++ p'). split; [apply Forall2_app; auto|]. unfold bproj. rewrite app_length.
  rewrite (F2_length Hp'), <- (F2_length HF). replace (length p0 + length t - length t)%nat with (length p0) by lia.
  rewrite skipn_app_exact by auto. exact E.
Qed.

Lemma diag1_mask n f a fl ax y g l m : awf n a -> elementwise f [lx a] -> jidx (ljac a) = Some m -> sparse_diag_jvp f [a] fl ax = Some (y, g, l) ->
  exists m2, jidx g = Some m2 /\ sh m2 = rows (jdata (ljac a)) :: sh (o_fwd f [lx a]) /\ bto (sh (lx a)) (sh (o_fwd f [lx a])) /\
  rows (jdata g) = rows (jdata (ljac a)) /\
  forall r p, inb p (sh (o_fwd f [lx a])) -> at_ m2 (r :: p) = at_ m (r :: bproj (sh (lx a)) p).
Proof.
  intros Hwf He Em H. pose proof Hwf as [Hj Hl]. destruct (jwf_sparse Hj Em) as (Sd & Sm & _).
  unfold sparse_diag_jvp in H. cbn [all_weak forallb] in H. unfold weak in H. rewrite Em in H. cbn [andb negb] in H.
  match type of H with bind ?o _ = _ => destruct o as [[g1 l1]|] eqn:Egl; [|discriminate] end. cbn [bind] in H.
  assert (sh g1 = rows (jdata (ljac a)) :: sh (o_fwd f [lx a])) as Hg1.
  { cbn [xs_of map] in Egl. destruct (sheq (sh (o_fwd f [lx a])) (sh (lx a))) eqn:Es.
    - apply sheq_eq in Es. destruct (bin rmul (vjp1 f (lx a) _) (jdata (ljac a))) as [g'|] eqn:Eg; [|discriminate]. cbn [bind] in Egl.
      destruct (bin rmul (vjp1 f (lx a) _) (llap a)) as [l'|] eqn:El; [|discriminate]. cbn [bind] in Egl. injection Egl as <- <-.
      destruct (@bin_row_mul _ _ (vjp1 f (lx a) (ones_like (o_fwd f [lx a]))) (jdata (ljac a)) (rows (jdata (ljac a))) (sh (lx a))) as (g2 & Eg' & Sg & _); auto.
      rewrite Eg in Eg'. injection Eg' as <-. rewrite Sg, Es. reflexivity.
    - injection Egl as <- <-. unfold butlast, rows at 1. cbn. rewrite Nat.add_0_r. f_equal. lia. }
  cbn [bind] in H. rewrite (mask_sparse _ Em) in H.
  destruct (broadcast_mask_to_jacobian m g1) as [m2|] eqn:E2; [|discriminate]. cbn [bind] in H.
  destruct (sheq (sh g1) (sh m2)); [|discriminate]. injection H as <- <- <-.
  destruct (bmj_spec _ _ Sm Hg1 E2) as (Hb & Hs2 & Hat). exists m2. cbn [jidx jdata]. rewrite (rows_cons _ Hg1). auto 10.
Qed.

Theorem sparse_jvp1_sound n f kwaxes a threshold fl in_axes r : (0 < n)%nat -> awf n a -> jrow1 (ljac a) ->
  struct_at f kwaxes fl in_axes [lx a] 0 ->
  sparse_jvp1 f kwaxes a threshold fl in_axes = Some r ->
  let g := snd (fst r) in
  step_ok n f [a] r /\ jrow1 g /\ (axes_of kwaxes in_axes (lx a) <> [] \/ jinv (ljac a) -> jinv g) /\
  (weak (ljac a) = false -> weak g = false) /\
  (axes_of kwaxes in_axes (lx a) <> [] -> weak g = true -> (Z.of_nat (rows (jdata g)) <= threshold)%Z).
Proof.
  intros Hn Hwf H1 Hst H g. unfold sparse_jvp1 in H. fold (axes_of kwaxes in_axes (lx a)) in H.
  unfold struct_at in Hst. cbn [nth] in Hst.
  assert (axes_nil in_axes = true -> elementwise f [lx a]) as Hel.
  { intros E. destruct in_axes as [[|]|]; try discriminate. cbn [axes_of] in Hst. intros b Hb. cbn in Hb. assert (b = 0)%nat by lia. subst b. exact Hst. }
  destruct (weak (ljac a)) eqn:Hw; cbn [negb] in H.
  2:{ destruct (@dense_jvp_sound _ _ n f [a] fl in_axes r) as [S1 S2]; auto; [congruence|intros b [<-|[]]; auto|].
      fold g in S2. split; [auto|]. split; [unfold jrow1; rewrite S2; discriminate|]. split; [intros _; apply jinv_dense; auto|].
      split; [auto|]. rewrite S2. discriminate. }
  destruct (axes_of kwaxes in_axes (lx a)) as [|z zs] eqn:Eax.
  - assert (elementwise f [lx a]) as He.
    { intros b Hb. cbn in Hb. assert (b = 0)%nat by lia. subst b. exact Hst. }
    destruct (@sparse_diag_sound _ _ n f [a] fl in_axes r) as [S1 S2]; auto; [congruence|intros b [<-|[]]; auto|].
    unfold weak in Hw. destruct (jidx (ljac a)) as [m|] eqn:Em; [|discriminate].
    destruct r as [[y g0] l]. cbn [fst snd] in *. subst g. rename g0 into g.
    destruct (@diag1_mask n f a fl in_axes y g l m Hwf He Em H) as (m2 & Em2 & Sm2 & Hb & Hrw & Hat).
    split; [auto|]. split; [intros _; rewrite Hrw; apply H1; unfold weak; rewrite Em; auto|]. split; [|split; [discriminate|congruence]].
    intros [|IJ]; [congruence|]. unfold jinv in *. rewrite Em in IJ. rewrite Em2. destruct (jwf_sparse (proj1 Hwf) Em) as (_ & Sm & _).
    destruct (IJ _ _ Sm) as [I1 I2]. intros k s E. rewrite Sm2 in E. injection E as <- <-. split; [auto|].
    intros H2 Hall p Hp. rewrite Hat by auto. apply I2; auto.
    + intros r q Hr Hq. destruct (bproj_surj Hb Hp Hq) as (p' & Hp' & <-). rewrite <- !Hat by auto. apply Hall; auto.
    + eapply bproj_inb; eauto.
  - destruct Hst as (Hnd & Hlt & Hst). rewrite <- Eax in *. clear Eax.
    assert (step_ok n f [a] r /\ jdistinct g /\ (weak g = true -> (Z.of_nat (rows (jdata g)) <= threshold)%Z /\ (1 <= rows (jdata g))%nat)) as (S1 & S2 & S3).
    { destruct (has SUMMATION fl).
      - destruct Hst as [_ Hst]. eapply sparse_sum_sound; eauto.
      - apply (@sparse_reduction_sound _ _ n f a (axes_of kwaxes in_axes (lx a)) threshold fl in_axes r); auto. }
    assert (jrow1 g) as R1 by (intros W; apply S3; auto).
    split; [auto|]. split; [auto|]. split; [|split; [discriminate|intros _ W; apply S3; auto]].
    intros _. destruct r as [[y g0] l]. cbn in g. subst g. destruct S1 as (_ & Hj & _). eapply jdistinct_jinv; eauto.
Qed.

(* ---- the argument shuffling of one_by_one_jvp ---- *)
Lemma upto_from_neg {X} (l m : list X) k : length m = k -> (0 < k)%nat -> py_upto_neg k (l ++ m) = l /\ py_from_neg k (l ++ m) = m.
Proof.
  intros Hm Hk. destruct k as [|k]; [lia|]. unfold py_upto_neg, py_from_neg. rewrite app_length, Hm.
  replace (length l + S k - S k)%nat with (length l) by lia. rewrite firstn_app_exact, skipn_app_exact by auto. auto.
Qed.
Lemma drop_one {X} (xs : list X) i d : (i < length xs)%nat ->
  let st := firstn i xs ++ skipn (i + 1) xs in firstn i st ++ [nth i xs d] ++ skipn i st = xs /\ length st = (length xs - 1)%nat.
Proof.
  intros Hi st. assert (length (firstn i xs) = i) as L by (rewrite firstn_length; lia). split.
  - unfold st. rewrite firstn_app_exact, skipn_app_exact by auto. 
    clear - Hi. revert i Hi. induction xs as [|x xs IH]; intros [|i] Hi; cbn in *; try lia; auto. f_equal. apply IH; lia.
  - unfold st. rewrite app_length, L, skipn_length. lia.
Qed.
Lemma new_merge_fwd mg (xs extra : list (nd A)) i : (2 <= length xs)%nat -> (i < length xs)%nat ->
  new_merge mg (length xs - 1) i [nth i xs nd0] (extra ++ firstn i xs ++ skipn (i + 1) xs) = mg _ xs extra.
Proof.
  intros H2 Hi. unfold new_merge. destruct (drop_one xs nd0 Hi) as [E1 E2]. cbv zeta in E1, E2.
  destruct (@upto_from_neg _ extra _ _ E2 ltac:(lia)) as [-> ->]. cbn [firstn]. rewrite E1. reflexivity.
Qed.
Lemma new_merge_pos mg n ne i : merge_ok mg n ne -> (2 <= n)%nat -> (i < n)%nat ->
  posof (new_merge mg (n - 1) i) 1 (ne + (n - 1)) 0 = posof mg n ne i.
Proof.
  intros Hm H2 Hi. destruct (merge_layout Hm) as (lay & Hp & El & Hlay). unfold posof. rewrite El. unfold new_merge.
  rewrite seq_app. destruct (@upto_from_neg _ (seq 1 ne) (seq (1 + ne) (n - 1)) (n - 1)) as [-> ->]; [apply seq_length|lia|].
  set (st := seq (1 + ne) (n - 1)). cbn [seq firstn]. set (l1 := firstn i st ++ [0%nat] ++ skipn i st).
  assert (length (firstn i st) = i) as Lf by (rewrite firstn_length; unfold st; rewrite seq_length; lia).
  assert (length l1 = n) as Ll. { unfold l1. rewrite !app_length, Lf, skipn_length. unfold st. rewrite seq_length. cbn. lia. }
  rewrite (Hlay _ 1%nat) by (rewrite ?seq_length; auto).
  assert (forall j, (j < n + ne)%nat -> nth j (l1 ++ seq 1 ne) 1%nat = 0%nat <-> j = i) as Hj.
  { intros j Hj. split.
    - intros E. destruct (Nat.lt_ge_cases j n) as [L|L].
      + rewrite app_nth1 in E by lia. unfold l1 in E. destruct (Nat.lt_trichotomy j i) as [L1|[L1|L1]]; auto.
        * rewrite app_nth1 in E by lia. assert (In 0%nat st); [|unfold st in *; rewrite in_seq in *; lia].
          rewrite <- (firstn_skipn i st). apply in_or_app. left. rewrite <- E. apply nth_In. lia.
        * rewrite app_nth2 in E by lia. rewrite Lf in E. destruct (j - i)%nat as [|d] eqn:Ed; [lia|]. cbn [app nth] in E.
          assert (In 0%nat st); [|unfold st in *; rewrite in_seq in *; lia].
          rewrite <- (firstn_skipn i st). apply in_or_app. right. rewrite <- E. apply nth_In. rewrite skipn_length. unfold st. rewrite seq_length. lia.
      + rewrite app_nth2 in E by lia. rewrite seq_nth in E by lia. lia.
    - intros ->. rewrite app_nth1 by lia. unfold l1. rewrite app_nth2 by lia. rewrite Lf, Nat.sub_diag. reflexivity. }
  assert (forall j, In j lay -> (j < n + ne)%nat) as Hb by (intros j; apply (is_perm_In j Hp)).
  clear - Hj Hb. induction lay as [|j lay IH]; [reflexivity|]. cbn [map pos].
  rewrite IH by (intros; apply Hb; cbn; auto). specialize (Hj j (Hb j (or_introl eq_refl))).
  destruct (Nat.eqb_spec (nth j (l1 ++ seq 1 ne) 1%nat) 0), (Nat.eqb_spec j i); auto; tauto.
Qed.

Section Obo.
Variables (F : fn A) (mg : mergefn) (extra : list (nd A)) (args : list (lapl A)) (n : nat).
Hypothesis Hn : (0 < n)%nat.
Hypothesis Hmg : merge_ok mg (length args) (length extra).
Hypothesis Hwf : forall a, In a args -> awf n a.
Let f := merged (f_op F) mg (length args) extra.
Let xs := xs_of args.
Definition obo_op (i : nat) : op A :=
  merged (f_op F) (new_merge mg (length xs - 1) i) 1 (extra ++ firstn i xs ++ skipn (i + 1) xs).
Hypothesis H2 : (2 <= length args)%nat.

Lemma obo_op_spec i : (i < length args)%nat -> let x := lx (nth i args la0) in
  o_fwd (obo_op i) [x] = o_fwd f xs /\ forall p q, o_d (obo_op i) [x] p 0%nat q = o_d f xs p i q.
Proof.
  intros Hi x. assert (length xs = length args) as Lx by apply xs_length.
  assert (x = nth i xs nd0) as -> by (unfold x, xs; rewrite xs_nth; auto).
  pose proof (@new_merge_fwd mg xs extra i ltac:(lia) ltac:(lia)) as E.
  unfold obo_op, f, merged. cbn [o_fwd o_d]. rewrite E. split; [reflexivity|]. intros p q. f_equal.
  rewrite app_length. destruct (drop_one xs nd0 (i := i) ltac:(lia)) as [_ E2]. cbv zeta in E2. rewrite E2, Lx.
  apply new_merge_pos; auto.
Qed.
Lemma obo_struct i kw fl ax : (i < length args)%nat -> struct_at f kw fl ax xs i -> struct_at (obo_op i) kw fl ax [lx (nth i args la0)] 0.
Proof.
  intros Hi H. destruct (obo_op_spec Hi) as [E1 E2]. unfold struct_at in *. cbn [nth].
  assert (nth i xs nd0 = lx (nth i args la0)) as Ex by (unfold xs; rewrite xs_nth; auto). rewrite Ex in H.
  set (x := lx (nth i args la0)) in *. cbv zeta in *. destruct (axes_of kw ax x) as [|z zs].
  - unfold elementwise_at in *. cbn [nth]. rewrite Ex in H. rewrite E1. destruct H as [H1 H]. split; [auto|]. intros. rewrite E2. auto.
  - destruct H as (Q1 & Q2 & Q3). split; [auto|]. split; [auto|]. destruct (has SUMMATION fl).
    + destruct Q3 as [Q3 _]. exfalso. assert (length xs = length args) as Lx by apply xs_length. rewrite Q3 in Lx. cbn in Lx. lia.
    + unfold reduces_at in *. cbn [nth]. rewrite Ex in Q3. rewrite E1. intros. rewrite E2. apply Q3; auto.
Qed.
(* the contribution of argument a to the chain rule *)
Definition term1 (p : ix) (v : ix -> A) (a : nat) : A :=
  sumL (allix (sh (lx (nth a args la0)))) (fun q => o_d f xs p a q * v q).
Lemma obo_term i (p : ix) (v : nat -> ix -> A) : (i < length args)%nat ->
  chain1 (obo_op i) [lx (nth i args la0)] p v = term1 p (v 0%nat) i.
Proof.
  intros Hi. unfold chain1, sumn. cbn [length seq sumL nth]. destruct (obo_op_spec Hi) as [_ E]. unfold term1.
  rewrite (sumL_ext _ _ (fun q => o_d f xs p i q * v 0%nat q)); [ring|]. intros q _. rewrite E. reflexivity.
Qed.
Lemma dspec_terms i p : dspec f args i p = sumn (length args) (fun a => term1 p (jent (ljac (nth a args la0)) i) a).
Proof. unfold dspec, chain1. rewrite xs_length. apply sumn_ext. intros a Ha. rewrite xs_nth by auto. reflexivity. Qed.
Lemma lspec_terms p : lspec f args p = sumn (length args) (fun a => term1 p (at_ (llap (nth a args la0))) a).
Proof. unfold lspec, chain1. rewrite xs_length. apply sumn_ext. intros a Ha. rewrite xs_nth by auto. reflexivity. Qed.

Variables (threshold : Z) (fl : flags) (in_axes : option (list Z)).
Hypothesis Hst : forall a, (a < length args)%nat -> struct_at f (f_kwaxes F) fl in_axes xs a.
Hypothesis Hrow : forall a, In a args -> jrow1 (ljac a).

(* the accumulator after i arguments *)
Definition acc_ok (i : nat) (r : result A) : Prop :=
  let '(y, g, l) := r in let so := sh (o_fwd f xs) in
  y = o_fwd f xs /\ jwf n so g /\ sh l = so /\
  (forall c p, inb p so -> jent g c p = sumn i (fun a => term1 p (jent (ljac (nth a args la0)) c) a)) /\
  (forall p, inb p so -> at_ l p = sumn i (fun a => term1 p (at_ (llap (nth a args la0))) a)).
Lemma acc_done r : acc_ok (length args) r -> step_ok n f args r.
Proof.
  destruct r as [[y g] l]. intros (H3 & H4 & H5 & H6 & H7). split; [auto|]. split; [auto|]. split; [auto|]. split.
  - intros c p Hp. rewrite dspec_terms. auto.
  - intros p Hp. rewrite lspec_terms. auto.
Qed.

(* one argument *)
Lemma obo_step i r : (i < length args)%nat -> sparse_jvp1 (obo_op i) (f_kwaxes F) (nth i args la0) threshold fl in_axes = Some r ->
  let '(y, g, l) := r in let so := sh (o_fwd f xs) in let a := nth i args la0 in
  y = o_fwd f xs /\ jwf n so g /\ sh l = so /\
  (forall c p, inb p so -> jent g c p = term1 p (jent (ljac a) c) i) /\
  (forall p, inb p so -> at_ l p = term1 p (at_ (llap a)) i) /\ jrow1 g /\
  (axes_of (f_kwaxes F) in_axes (lx a) <> [] \/ jinv (ljac a) -> jinv g) /\ (weak (ljac a) = false -> weak g = false).
Proof.
  intros Hi H. set (a := nth i args la0) in *. assert (In a args) as Ha by (apply nth_In; auto).
  destruct (@sparse_jvp1_sound n (obo_op i) (f_kwaxes F) a threshold fl in_axes r) as (S1 & S2 & S3 & S4 & _); auto.
  { apply obo_struct; auto. }
  destruct r as [[y g] l]. cbn [fst snd] in *. destruct (obo_op_spec Hi) as [E1 E2]. unfold step_ok in S1. cbn [xs_of map] in S1. fold a in E1. rewrite E1 in S1.
  destruct S1 as (Q1 & Q2 & Q3 & Q4 & Q5). split; [auto|]. split; [auto|]. split; [auto|]. split; [|split; [|auto]].
  - intros c p Hp. rewrite Q4 by auto. unfold dspec. cbn [xs_of map]. unfold a. rewrite obo_term by auto. reflexivity.
  - intros p Hp. rewrite Q5 by auto. unfold lspec. cbn [xs_of map]. unfold a. rewrite obo_term by auto. reflexivity.
Qed.

Lemma obo_acc i acc r r2 : (i < length args)%nat -> acc_ok i acc ->
  sparse_jvp1 (obo_op i) (f_kwaxes F) (nth i args la0) threshold fl in_axes = Some r ->
  (let '(y, g, l) := acc in let '(_, g', l') := r in
   let* g2 := jadd g g' in let* l2 := bin radd l l' in Some (y, g2, l2)) = Some r2 ->
  (jinv (snd (fst acc)) /\ (axes_of (f_kwaxes F) in_axes (lx (nth i args la0)) <> [] \/ jinv (ljac (nth i args la0)))) \/
  weak (snd (fst acc)) && weak (snd (fst r)) = false ->
  acc_ok (S i) r2 /\ jinv (snd (fst r2)).
Proof.
  intros Hi Ha Hr E Hor. pose proof (obo_step Hi Hr) as Hs. destruct acc as [[y g] l], r as [[y' g'] l'], r2 as [[y2 g2] l2].
  cbv zeta in Hs. destruct Hs as (S1 & S2 & S3 & S4 & S5 & S6 & S7 & S8). destruct Ha as (A1 & A2 & A3 & A4 & A5).
  cbn [fst snd] in *. destruct (jadd g g') as [g3|] eqn:Ej; [|discriminate]. cbn [bind] in E.
  destruct (@bin_same _ radd _ _ _ A3 S3) as (l3 & El & Sl & Al). rewrite El in E. cbn [bind] in E. injection E as <- <- <-.
  destruct (@jadd_inv_sound g g' n _ _ Hn A2 S2 Ej) as (J1 & J2 & J3). { destruct Hor as [[I1 I2]|]; [left; auto|auto]. }
  split; [|exact J3]. split; [auto|]. split; [auto|]. split; [auto|]. split.
  - intros c p Hp. rewrite J2, A4, S4, sumn_last by auto. reflexivity.
  - intros p Hp. rewrite Al, A5, S5, sumn_last by auto. reflexivity.
Qed.

Lemma obo_first r : sparse_jvp1 (obo_op 0) (f_kwaxes F) (nth 0 args la0) threshold fl in_axes = Some r -> acc_ok 1 r.
Proof.
  intros Hr. pose proof (@obo_step 0 _ ltac:(lia) Hr) as Hs. destruct r as [[y g] l]. cbv zeta in Hs.
  destruct Hs as (S1 & S2 & S3 & S4 & S5 & _). split; [auto|]. split; [auto|]. split; [auto|]. split.
  - intros c p Hp. rewrite S4 by auto. unfold sumn. cbn. ring.
  - intros p Hp. rewrite S5 by auto. unfold sumn. cbn. ring.
Qed.

Theorem obo_sound r :
  (forall a, In a args -> axes_of (f_kwaxes F) in_axes (lx a) <> [] \/ jinv (ljac a)) \/
  (length args = 2%nat /\ all_weak args = false) ->
  one_by_one_jvp F mg extra threshold fl in_axes args = Some r -> step_ok n f args r /\ jinv (snd (fst r)).
Proof.
  intros Hor H. unfold one_by_one_jvp in H. change (xs_of args) with xs in H.
  destruct Hor as [Hinv|[Hlen Hmix]].
  - assert (forall k i acc, (i + k = length args)%nat -> (1 <= i)%nat -> acc_ok i acc -> jinv (snd (fst acc)) ->
       obo_loop F mg extra xs threshold fl in_axes i (skipn i args) (Some acc) = Some r -> step_ok n f args r /\ jinv (snd (fst r))) as Hloop.
    { induction k as [|k IH]; intros i acc Hk Hi Ha Hj Hl.
      - rewrite skipn_all2 in Hl by lia. cbn in Hl. injection Hl as <-. rewrite Nat.add_0_r in Hk. subst i. split; [apply acc_done|]; auto.
      - assert (skipn i args = nth i args la0 :: skipn (S i) args) as Es.
        { assert (forall (l : list (lapl A)) j, (j < length l)%nat -> skipn j l = nth j l la0 :: skipn (S j) l) as G.
          { induction l as [|a l IHl]; intros [|j] Hj'; cbn in *; try lia; auto. apply IHl. lia. }
          apply G. lia. }
        rewrite Es in Hl. cbn [obo_loop] in Hl. fold (obo_op i) in Hl.
        destruct (sparse_jvp1 (obo_op i) (f_kwaxes F) (nth i args la0) threshold fl in_axes) as [ri|] eqn:Er; [|discriminate]. cbn [bind] in Hl.
        match type of Hl with match ?o with _ => _ end = _ => destruct o as [acc'|] eqn:Eacc; [|discriminate] end.
        destruct (@obo_acc i acc ri acc') as [A1 A2]; auto; [lia| |].
        { left. split; auto. apply Hinv, nth_In. lia. }
        apply (IH (S i) acc'); auto; lia. }
    assert (forall l : list (lapl A), (2 <= length l)%nat -> l = nth 0 l la0 :: skipn 1 l) as Es by (intros [|a l]; cbn; [lia|auto]).
    rewrite (Es args H2) in H. cbn [obo_loop] in H. fold (obo_op 0) in H.
    destruct (sparse_jvp1 (obo_op 0) (f_kwaxes F) (nth 0 args la0) threshold fl in_axes) as [ri|] eqn:Er; [|discriminate]. cbn [bind] in H.
    apply (Hloop (length args - 1)%nat 1%nat ri); [lia|lia|apply obo_first; auto| |exact H].
    { pose proof (@obo_step 0 _ ltac:(lia) Er) as Hs. destruct ri as [[y g] l]. cbv zeta in Hs. apply Hs. apply Hinv, nth_In. lia. }
  - assert (exists a b, args = [a; b]) as (a & b & Eab).
    { assert (forall l : list (lapl A), length l = 2%nat -> exists a b, l = [a; b]) as G by (intros [|a [|b [|c l]]] E; cbn in E; try lia; eauto). auto. }
    assert (nth 0 args la0 = a /\ nth 1 args la0 = b) as [N0 N1] by (rewrite Eab; auto).
    rewrite Eab in H at 1. cbn [obo_loop] in H. fold (obo_op 0) in H. fold (obo_op 1) in H.
    destruct (sparse_jvp1 (obo_op 0) (f_kwaxes F) a threshold fl in_axes) as [ri|] eqn:Er; [|discriminate]. cbn [bind] in H.
    destruct (sparse_jvp1 (obo_op 1) (f_kwaxes F) b threshold fl in_axes) as [rj|] eqn:Er2; [|discriminate]. cbn [bind] in H.
    match type of H with match ?o with _ => _ end = _ => destruct o as [acc'|] eqn:Eacc; [|discriminate] end. injection H as <-.
    rewrite <- N0 in Er. rewrite <- N1 in Er2.
    destruct (@obo_acc 1 ri rj acc') as [A1 A2]; auto; [apply obo_first; auto| |].
    { right. pose proof (@obo_step 0 _ ltac:(lia) Er) as Hs. pose proof (@obo_step 1 _ ltac:(lia) Er2) as Ht.
      destruct ri as [[y g] l], rj as [[y' g'] l']. cbv zeta in Hs, Ht. cbn [fst snd].
      destruct Hs as (_ & _ & _ & _ & _ & _ & _ & W1), Ht as (_ & _ & _ & _ & _ & _ & _ & W2). rewrite N0 in W1. rewrite N1 in W2.
      rewrite Eab in Hmix. cbn in Hmix. rewrite andb_true_r in Hmix. apply andb_false_iff in Hmix. apply andb_false_iff.
      destruct Hmix as [E|E]; [left; auto|right; auto]. }
    split; [|exact A2]. apply acc_done. rewrite Hlen. exact A1.
Qed.
End Obo.

(* functions without declared structure: any function of non-sum type satisfies the assumption when all axes are reduced *)
Lemma struct_at_all (f : op A) fl xs a : has SUMMATION fl = false -> struct_at f None fl None xs a.
Proof.
  intros Hfl. unfold struct_at. cbn [axes_of]. set (x := nth a xs nd0).
  destruct (map Z.of_nat (seq 0 (ndim x))) as [|z zs] eqn:E.
  - assert (sh x = []) as Hs. { unfold ndim in E. destruct (sh x); [auto|discriminate]. }
    unfold elementwise_at. fold x. rewrite Hs. split; [apply bto_nil|]. intros p q Hp Hq Hne. inversion Hq; subst.
    exfalso. apply Hne. reflexivity.
  - rewrite <- E. clear z zs E. rewrite Hfl.
    assert (norm_axes (ndim x) (map Z.of_nat (seq 0 (ndim x))) = seq 0 (ndim x)) as ->.
    { unfold norm_axes. rewrite map_map. transitivity (map (fun d : nat => d) (seq 0 (ndim x))); [|apply map_id].
      apply map_ext_in. intros d _. destruct (Z.ltb_spec (Z.of_nat d) 0); lia. }
    split; [apply seq_NoDup|]. split; [intros d Hd; apply in_seq in Hd; lia|].
    unfold reduces_at. fold x. intros p q Hp Hq Hne. exfalso. apply Hne.
    assert (keep_pos (ndim x) (seq 0 (ndim x)) = []) as ->; [|reflexivity].
    destruct (keep_pos (ndim x) (seq 0 (ndim x))) as [|d l] eqn:E; [auto|].
    assert (In d (keep_pos (ndim x) (seq 0 (ndim x)))) as Hin by (rewrite E; cbn; auto).
    apply keep_pos_In in Hin. destruct Hin as [H1 H2]. exfalso. apply H2, in_seq. lia.
Qed.

Lemma diag_row1 n f args fl ax r : args <> [] -> (forall a, In a args -> awf n a) -> elementwise f (xs_of args) ->
  (forall a, In a args -> jrow1 (ljac a)) -> sparse_diag_jvp f args fl ax = Some r -> jrow1 (snd (fst r)).
Proof.
  intros Hne Hwf He H1 H. destruct args as [|a [|b args']]; [congruence| |].
  - destruct (weak (ljac a)) eqn:Wa.
    + unfold weak in Wa. destruct (jidx (ljac a)) as [m|] eqn:Em; [|discriminate]. destruct r as [[y g] l].
      destruct (@diag1_mask n f a fl ax y g l m (Hwf a (or_introl eq_refl)) He Em H) as (_ & _ & _ & _ & Hrw & _).
      intros _. cbn [fst snd]. rewrite Hrw. apply (H1 a); cbn; auto. unfold weak. rewrite Em. auto.
    + unfold sparse_diag_jvp in H. cbn [all_weak forallb] in H. rewrite Wa in H. cbn [andb negb] in H.
      intros W. unfold dense_jvp in H. match type of H with bind ?o _ = _ => destruct o as [[[y g] l]|]; [|discriminate] end.
      cbn [bind] in H. injection H as <-. discriminate.
  - set (args := a :: b :: args') in *. unfold sparse_diag_jvp in H. destruct (all_weak args) eqn:Hw; cbn [negb] in H.
    2:{ intros W. unfold dense_jvp in H. match type of H with bind ?o _ = _ => destruct o as [[[y g] l]|]; [|discriminate] end.
        cbn [bind] in H. injection H as <-. discriminate. }
    match type of H with bind ?o _ = _ => destruct o as [[g l]|] eqn:Egl; [|discriminate] end. cbn [bind] in H.
    match type of H with bind ?o _ = _ => destruct o as [[rm g2]|] eqn:Erm; [|discriminate] end. cbn [bind] in H.
    destruct (broadcast_mask_to_jacobian rm g2) as [rm2|] eqn:E2; [|discriminate]. cbn [bind] in H.
    destruct (sheq (sh g2) (sh rm2)); [|discriminate]. injection H as <-. intros _. cbn [fst snd jdata].
    unfold args in Erm. fold args in Erm.
    destruct (bexcs (map (fun a => mask (ljac a)) args)) as [ms|] eqn:Ems; [|discriminate]. cbn [bind] in Erm.
    match type of Erm with context[unique_rows ?c] => set (cm := c) in * end.
    assert (1 <= rows cm)%nat as Hcm.
    { unfold bexcs in Ems. destruct (bshapes _) as [post|]; [|discriminate]. cbn [bind] in Ems. injection Ems as <-.
      destruct (all_weak_nth args Hw (a := 0%nat) ltac:(cbn; lia)) as [m Hm]. cbn [nth args] in Hm.
      assert (awf n a) as [Hj _] by (apply Hwf; cbn; auto). destruct (jwf_sparse Hj Hm) as (_ & Sm & _).
      assert (1 <= rows (jdata (ljac a)))%nat as R1 by (apply H1; [cbn; auto|unfold weak; rewrite Hm; auto]).
      unfold cm, args. unfold rows at 1. cbn [concat0 sh hd map list_sum fold_right]. rewrite (mask_sparse _ Hm). unfold rows at 1. rewrite bexc1_sh, (rows_cons _ Sm). cbn [hd]. lia. }
    destruct (unique_rows cm) as [u inv] eqn:Eu. injection Erm as <- <-. unfold rows at 1. cbn [segment_sum sh hd].
    unfold unique_rows in Eu. injection Eu as <- _. unfold rows. cbn [sh hd].
    destruct (uniqL _) as [|z zs] eqn:Ez; [|cbn; lia]. exfalso.
    assert (In (flat (row cm 0)) (uniqL (map (fun r => flat (row cm r)) (seq 0 (rows cm))))) as Hin.
    { apply uniqL_In, in_map_iff. exists 0%nat. split; auto. apply in_seq. lia. }
    rewrite Ez in Hin. inversion Hin.
Qed.

Lemma index_row1 n g ok filled mg args extra fl ax r : args <> [] -> (forall a, In a args -> awf n a) ->
  (forall a, In a args -> jrow1 (ljac a)) -> sparse_index_jvp g ok filled mg args extra fl ax = Some r -> jrow1 (snd (fst r)).
Proof.
  intros Hne Hwf H1 H. unfold sparse_index_jvp in H.
  assert (forall f, dense_jvp f args fl ax = Some r -> jrow1 (snd (fst r))) as Hd.
  { clear H. intros f H W. unfold dense_jvp in H. match type of H with bind ?o _ = _ => destruct o as [[[y g'] l]|]; [|discriminate] end.
    cbn [bind] in H. injection H as <-. discriminate. }
  destruct (all_weak args) eqn:Hw; cbn [negb] in H; [|eauto].
  match type of H with (if ?c then _ else _) = _ => destruct c end; [eauto|].
  destruct (sheq _ _); [|discriminate]. injection H as <-. intros _. cbn [fst snd jdata]. unfold rows at 1. cbn [butlast sh hd].
  unfold rows at 1. cbn [vmap_jvp stack sh hd]. match goal with |- (1 <= ?k + 1 - 1)%nat => assert (1 <= k)%nat; [|lia] end.
  destruct args as [|a args']; [congruence|]. destruct (all_weak_nth (a :: args') Hw (a := 0%nat) ltac:(cbn; lia)) as [m Hm]. cbn [nth] in Hm.
  assert (awf n a) as [Hj _] by (apply Hwf; cbn; auto). destruct (jwf_sparse Hj Hm) as (_ & Sm & _).
  assert (1 <= rows (jdata (ljac a)))%nat as R1 by (apply H1; [cbn; auto|unfold weak; rewrite Hm; auto]).
  etransitivity; [|apply maxl_ge; apply in_map; unfold broadcast_dim; apply in_map; cbn [map]; left; reflexivity].
  unfold pad_rows, rows. cbn [concat0 sh hd map list_sum fold_right]. rewrite (mask_sparse _ Hm). unfold rows. rewrite Sm. cbn [hd]. lia.
Qed.

(* ---- get_jvp_function ---- *)
Theorem jvp_fn_sound n F mg extra threshold fl in_axes args r : (0 < n)%nat -> args <> [] ->
  merge_ok mg (length args) (length extra) -> (forall a, In a args -> awf n a /\ jrow1 (ljac a)) ->
  let f := merged (f_op F) mg (length args) extra in let xs := xs_of args in
  (forall a, (a < length args)%nat -> struct_at f (f_kwaxes F) fl in_axes xs a) ->
  iop_ok F fl (mg _ xs extra) ->
  (any_weak args = false \/ all_weak args && (has INDEXING fl || axes_nil in_axes) = true \/
   (length args <= 2)%nat /\ all_weak args = false \/ length args = 1%nat \/
   forall a, In a args -> axes_of (f_kwaxes F) in_axes (lx a) <> [] \/ jinv (ljac a)) ->
  jvp_fn F mg extra threshold fl in_axes args = Some r ->
  step_ok n f args r /\ jrow1 (snd (fst r)).
Proof.
  intros Hn Hne Hmg Hargs f xs Hst Hiop Hcond H.
  assert (forall a, In a args -> awf n a) as Hwf by (intros; apply Hargs; auto).
  assert (forall a, In a args -> jrow1 (ljac a)) as Hrow by (intros; apply Hargs; auto).
  assert (axes_nil in_axes = true -> elementwise f xs) as Hel.
  { intros E a Ha. unfold xs in Ha. rewrite xs_length in Ha. specialize (Hst a Ha). unfold struct_at in Hst. destruct in_axes as [[|]|]; try discriminate.
    exact Hst. }
  assert (forall r, dense_jvp f args fl in_axes = Some r -> step_ok n f args r /\ jrow1 (snd (fst r))) as Hdense.
  { clear r H. intros r H. destruct (@dense_jvp_sound _ _ n f args fl in_axes r Hn Hne Hwf Hel H) as [S1 S2]. split; auto.
    unfold jrow1. rewrite S2. discriminate. }
  unfold jvp_fn in H. destruct (negb (any_weak args) || _) eqn:Ec.
  - unfold parallel_jvp in H. fold f in H. destruct (all_weak args) eqn:Hw; cbn [negb] in H; [|auto].
    destruct (has INDEXING fl) eqn:Hix.
    + unfold iop_ok in Hiop. destruct (f_iop F) as [[[g ok] filled]|]; [|auto]. destruct Hiop as [Ef Hg].
      assert (f = merged (iop_op g) mg (length args) extra) as Ef' by (unfold f; rewrite Ef; auto).
      split; [|eapply index_row1; eauto]. rewrite Ef'. eapply sparse_index_sound; eauto. rewrite <- Ef'. exact Hel.
    + unfold sparse_jvp in H. destruct args as [|a [|b args']]; [congruence| |].
      * destruct (@sparse_jvp1_sound n f (f_kwaxes F) a threshold fl in_axes r Hn (Hwf a (or_introl eq_refl)) (Hrow a (or_introl eq_refl)) (Hst 0%nat Nat.lt_0_1) H) as (S1 & S2 & _).
        split; auto.
      * rewrite Hw in H. cbn [negb] in H. destruct (axes_nil in_axes) eqn:Eax; [|discriminate].
        specialize (Hel eq_refl).
        split; [apply (@sparse_diag_sound _ _ n f (a :: b :: args') fl in_axes r Hn Hne Hwf Hel H)|apply (@diag_row1 n f (a :: b :: args') fl in_axes r Hne Hwf Hel Hrow H)].
  - destruct (any_weak args) eqn:Haw; cbn [negb orb] in Ec; [|discriminate].
    assert (length args <> 1%nat) as Hl1.
    { intros E. rewrite E in Ec. destruct args as [|a [|]]; cbn in E; try lia. cbn in Haw, Ec. rewrite orb_false_r in Haw. rewrite Haw in Ec. cbn in Ec.
      rewrite orb_true_r in Ec. discriminate. }
    assert (2 <= length args)%nat as H2 by (destruct args as [|? [|]]; cbn in *; try congruence; lia).
    destruct (@obo_sound F mg extra args n Hn Hmg Hwf H2 threshold fl in_axes Hst Hrow r) as [S1 S2]; auto.
    + destruct Hcond as [C|[C|[[C1 C2]|[C|C]]]]; [congruence| |right; split; auto; lia|congruence|auto].
      apply andb_true_iff in C. destruct C as [C1 C2]. rewrite C1, C2 in Ec. discriminate.
    + split; [auto|]. destruct r as [[y g] l]. destruct S1 as (_ & Hj & _). eapply jinv_row1; eauto.
Qed.
End O.
