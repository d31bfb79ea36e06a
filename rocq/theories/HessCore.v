(* HessCore.v : one evaluation (no batching) of the second-order strategies of hessian.py. *)
From Verif Require Export BatchFacts.
Set Implicit Arguments.

Section Core.
Context {A : Type} {RA : CRing A}.
Add Ring Aring_Core : (@rth A RA).
Open Scope cr_scope.

Lemma sum_unflat (ss : list shape) (F : nat * ix -> A) :
  sumn (flat_size ss) (fun d => F (unflat ss d)) = sumn (length ss) (fun a => sumL (allix (nth a ss [])) (fun q => F (a, q))).
Proof.
  revert F. induction ss as [|s ss IH]; intros F; [reflexivity|]. unfold flat_size in *. cbn [map list_sum fold_right].
  change (fold_right Nat.add 0%nat (map prod ss)) with (list_sum (map prod ss)).
  rewrite sumn_split. cbn [length]. rewrite sumn_S. cbn [nth]. f_equal.
  - rewrite <- (sum_unravel s (fun q => F (0%nat, q))). apply sumn_ext. intros d Hd. cbn.
    destruct (Nat.ltb_spec d (prod s)); [reflexivity|lia].
  - etransitivity; [|apply (IH (fun aq => F (S (fst aq), snd aq)))]. apply sumn_ext. intros d Hd. cbn.
    destruct (Nat.ltb_spec (prod s + d) (prod s)); [lia|]. replace (prod s + d - prod s)%nat with d by lia.
    destruct (unflat ss d); reflexivity.
Qed.
Lemma unflat_spec ss d : (d < flat_size ss)%nat -> (fst (unflat ss d) < length ss)%nat /\ inb (snd (unflat ss d)) (nth (fst (unflat ss d)) ss []).
Proof.
  revert d. induction ss as [|s ss IH]; intros d H; unfold flat_size in *; cbn [map list_sum fold_right] in H; [cbn in H; lia|].
  cbn. destruct (Nat.ltb_spec d (prod s)).
  - cbn. split; [lia|]. apply unravel_inb; auto.
  - specialize (IH (d - prod s)%nat). destruct (unflat ss (d - prod s)) as [a q]. cbn in *.
    change (fold_right Nat.add 0%nat (map prod ss)) with (list_sum (map prod ss)) in H. destruct IH; [lia|]. split; [lia|auto].
Qed.
Lemma cat_unflat (l : list (nd A)) ss d p : length l = length ss ->
  (forall a, (a < length ss)%nat -> rows (nth a l nd0) = prod (nth a ss [])) -> (d < flat_size ss)%nat ->
  cat_at 0 l d p = at_ (nth (fst (unflat ss d)) l nd0) (ravel_ix (nth (fst (unflat ss d)) ss []) (snd (unflat ss d)) :: p).
Proof.
  revert l d. induction ss as [|s ss IH]; intros l d Hl Hr Hd; [cbn in Hd; lia|]. destruct l as [|x l]; [discriminate|].
  unfold flat_size in Hd. cbn [map list_sum fold_right] in Hd. change (fold_right Nat.add 0%nat (map prod ss)) with (flat_size ss) in Hd.
  cbn [cat_at unflat]. pose proof (Hr 0%nat ltac:(cbn; lia)) as H0. cbn in H0. rewrite H0. destruct (Nat.ltb_spec d (prod s)).
  - cbn. rewrite ravel_unravel by auto. reflexivity.
  - rewrite (IH l (d - prod s)%nat); [|cbn in Hl; lia| |lia].
    + destruct (unflat ss (d - prod s)) as [a q]. reflexivity.
    + intros a Ha. apply (Hr (S a)). cbn. lia.
Qed.

(* reduced Jacobians g2 of arrays of shapes ss stand for the values g a r q (argument a, row r, element q) *)
Definition red_ok (ss : list shape) (R : nat) (g : nat -> nat -> ix -> A) (g2 : list (nd A)) : Prop :=
  length g2 = length ss /\ forall a, (a < length ss)%nat ->
    sh (nth a g2 nd0) = [R; prod (nth a ss [])] /\
    forall r q, (r < R)%nat -> inb q (nth a ss []) -> at_ (nth a g2 nd0) [r; ravel_ix (nth a ss []) q] = g a r q.

Lemma transpose10_nth (g2 : list (nd A)) a : (a < length g2)%nat ->
  nth a (map (transpose [1%nat; 0%nat]) g2) nd0 = transpose [1%nat; 0%nat] (nth a g2 nd0).
Proof. intros H. rewrite nth_map_in with (dx := nd0) by auto. reflexivity. Qed.
Lemma shapes_nth (xs : list (nd A)) a : (a < length xs)%nat -> nth a (map (@sh A) xs) [] = sh (nth a xs nd0).
Proof. intros H. rewrite nth_map_in with (dx := nd0) by auto. reflexivity. Qed.

Lemma sum_pairs (xs : list (nd A)) (F : nat * ix -> nat * ix -> A) : let ss := map (@sh A) xs in
  sumn (flat_size ss) (fun d => sumn (flat_size ss) (fun e => F (unflat ss d) (unflat ss e))) =
  sumn (length xs) (fun a => sumL (allix (sh (nth a xs nd0))) (fun q =>
    sumn (length xs) (fun b => sumL (allix (sh (nth b xs nd0))) (fun r => F (a, q) (b, r))))).
Proof.
  intros ss. rewrite (sum_unflat ss (fun aq => sumn (flat_size ss) (fun e => F aq (unflat ss e)))).
  unfold ss at 1. rewrite map_length. apply sumn_ext. intros a Ha. unfold ss at 1. rewrite shapes_nth by auto. apply sumL_ext. intros q _.
  rewrite (sum_unflat ss (fun bq => F (a, q) bq)). unfold ss at 1. rewrite map_length. apply sumn_ext. intros b Hb.
  unfold ss. rewrite shapes_nth by auto. reflexivity.
Qed.

(* tr(J H J^T) of the values g *)
Lemma general_sum f xs R g g2 G c : red_ok (map (@sh A) xs) R g g2 -> xs <> [] ->
  G = concat0 0 (map (transpose [1%nat; 0%nat]) g2) ->
  let D := rows G in
  nth 1 (sh G) 0%nat = R /\
  let T := sumn R (fun r => quad f xs c (fun a q => g a r q) (fun a q => g a r q)) in
  JHJ_via_hessian f xs G D R c = T /\ JHJ_via_trace f xs G D R c = T /\ JHJ_via_hvp f xs G D R c = T.
Proof.
  intros [Hl Hg] Hne HG. set (ss := map (@sh A) xs) in *.
  assert (Hls : length ss = length xs) by (unfold ss; apply map_length).
  assert (Hrows : forall a, (a < length ss)%nat -> rows (nth a (map (transpose [1%nat; 0%nat]) g2) nd0) = prod (nth a ss [])).
  { intros a Ha. rewrite transpose10_nth by lia. unfold rows. destruct (Hg a Ha) as [Hs _]. rewrite (@transpose10_sh _ _ _ _ Hs). reflexivity. }
  assert (HD : rows G = flat_size ss).
  { subst G. unfold concat0, rows at 1. cbn [sh hd]. unfold flat_size. f_equal. apply nth_ext with (d := 0%nat) (d' := 0%nat).
    - rewrite !map_length. lia.
    - intros a Ha. rewrite !map_length in Ha. rewrite (@nth_map_in _ _ (@rows A) _ _ nd0) by (rewrite map_length; auto).
      rewrite Hrows by lia. rewrite (@nth_map_in _ _ prod _ _ []) by lia. reflexivity. }
  assert (HR : nth 1 (sh G) 0%nat = R).
  { destruct xs as [|x xs]; [congruence|]. destruct g2 as [|y g2]; [cbn in Hl; lia|]. subst G. cbn.
    destruct (Hg 0%nat) as [Hs _]; [cbn; lia|]. cbn in Hs. rewrite Hs. reflexivity. }
  cbn zeta. split; [exact HR|]. rewrite HD.
  assert (HGv : forall d r, (d < flat_size ss)%nat -> (r < R)%nat -> at_ G [d; r] = g (fst (unflat ss d)) r (snd (unflat ss d))).
  { intros d r Hd Hr. subst G. cbn [concat0 at_ hd tl]. rewrite (cat_unflat _ ss); [|rewrite map_length; exact Hl|exact Hrows|exact Hd].
    destruct (unflat_spec ss Hd) as [H1 H2]. rewrite transpose10_nth by lia. destruct (Hg _ H1) as [Hs Hv].
    rewrite (@transpose10_at _ _ _ _ _ _ Hs). apply Hv; auto. }
  assert (Hh : forall d e, flat_hess f xs c d e = o_h f xs c (fst (unflat ss d)) (snd (unflat ss d)) (fst (unflat ss e)) (snd (unflat ss e))).
  { intros d e. unfold flat_hess. fold ss. destruct (unflat ss d), (unflat ss e). reflexivity. }
  set (N := flat_size ss) in *.
  assert (HT : sumn R (fun r => quad f xs c (fun a q => g a r q) (fun a q => g a r q)) =
    sumn R (fun r => sumn N (fun d => sumn N (fun e => flat_hess f xs c d e * (at_ G [d; r] * at_ G [e; r]))))).
  { apply sumn_ext. intros r Hr. unfold quad.
    rewrite <- (sum_pairs xs (fun aq bq => o_h f xs c (fst aq) (snd aq) (fst bq) (snd bq) * (g (fst aq) r (snd aq) * g (fst bq) r (snd bq)))).
    fold ss. fold N. apply sumn_ext. intros d Hd. apply sumn_ext. intros e He. rewrite Hh, !HGv by auto. reflexivity. }
  rewrite HT. split; [|split].
  - unfold JHJ_via_hessian. transitivity (sumn N (fun d => sumn R (fun r => sumn N (fun e => flat_hess f xs c d e * (at_ G [d; r] * at_ G [e; r]))))).
    + apply sumn_ext. intros d Hd. rewrite (sumn_swap R N). apply sumn_ext. intros e He. unfold sumn at 1. rewrite <- sumL_scale. reflexivity.
    + apply sumn_swap.
  - unfold JHJ_via_trace. apply sumn_ext. intros r Hr. rewrite (sumn_swap N N). apply sumn_ext. intros e He.
    unfold sumn at 1. rewrite <- sumL_scale_r. apply sumn_ext. intros d Hd. ring.
  - unfold JHJ_via_hvp. transitivity (sumn N (fun d => sumn R (fun r => sumn N (fun e => flat_hess f xs c d e * (at_ G [d; r] * at_ G [e; r]))))); [|apply sumn_swap].
    apply sumn_ext. intros d Hd. apply sumn_ext. intros r Hr. unfold sumn at 1. rewrite <- sumL_scale_r. apply sumn_ext. intros e He. ring.
Qed.
Theorem general_jhj_sum f c2r args idx r R g g2 : args <> [] ->
  get_reduced_jacobians (map (@ljac A) args) idx = Some g2 ->
  red_ok (map (@sh A) (xs_of args)) R g g2 -> general_jhj f c2r args idx = Some r ->
  sh r = sh (o_fwd f (xs_of args)) /\
  forall c, at_ r c = sumn R (fun k => quad f (xs_of args) c (fun a q => g a k q) (fun a q => g a k q)).
Proof.
  intros Hne Hg2 Hok H. unfold general_jhj in H. rewrite Hg2 in H. cbn [bind] in H. injection H as <-. split; [reflexivity|].
  intros c. cbn [at_]. assert (Hx : xs_of args <> []) by (destruct args; [congruence|discriminate]).
  destruct (@general_sum f (xs_of args) R g g2 _ c Hok Hx eq_refl) as (HR & H1 & H2 & H3). cbn [concat0 sh nth] in HR. rewrite HR.
  destruct (_ <? _)%nat; [destruct c2r|]; auto.
Qed.

(* sums over the reduced rows are sums over all inputs *)
Lemma rowsum n R (sg : nat -> option nat) (F : nat -> A) :
  (forall r i, (r < R)%nat -> sg r = Some i -> (i < n)%nat) ->
  (forall r r' i, (r < R)%nat -> (r' < R)%nat -> sg r = Some i -> sg r' = Some i -> r = r') ->
  (forall i, (i < n)%nat -> (forall r, (r < R)%nat -> sg r <> Some i) -> F i = 0) ->
  sumn R (fun r => match sg r with Some i => F i | None => 0 end) = sumn n F.
Proof.
  intros H1 H2 H3.
  transitivity (sumn R (fun r => sumn n (fun i => if match sg r with Some j => Nat.eqb j i | None => false end then F i else 0))).
  - apply sumn_ext. intros r Hr. destruct (sg r) as [i|] eqn:E.
    + rewrite (@sumn_single _ _ n i); [rewrite Nat.eqb_refl; reflexivity|eauto|]. intros j Hj Hne. destruct (Nat.eqb_spec i j); [congruence|reflexivity].
    + symmetry. apply sumn_zero. auto.
  - rewrite sumn_swap. apply sumn_ext. intros i Hi.
    destruct (existsb (fun r => match sg r with Some j => Nat.eqb j i | None => false end) (seq 0 R)) eqn:E.
    + apply existsb_exists in E. destruct E as (r & Hr & E). apply in_seq in Hr. destruct (sg r) as [j|] eqn:Es; [|discriminate]. apply Nat.eqb_eq in E. subst j.
      rewrite (@sumn_single _ _ R r); [rewrite Es, Nat.eqb_refl; reflexivity|lia|].
      intros r' Hr' Hne. destruct (sg r') as [j|] eqn:Es'; [|reflexivity]. destruct (Nat.eqb_spec j i) as [->|]; [|reflexivity].
      exfalso. apply Hne. apply (H2 r' r i); auto; lia.
    + rewrite H3; [|auto|].
      * apply sumn_zero. intros r Hr. destruct (match sg r with Some j => Nat.eqb j i | None => false end); reflexivity.
      * intros r Hr Hs. assert (existsb (fun r => match sg r with Some j => Nat.eqb j i | None => false end) (seq 0 R) = true); [|congruence].
        apply existsb_exists. exists r. split; [apply in_seq; lia|]. rewrite Hs. apply Nat.eqb_refl.
Qed.
End Core.
