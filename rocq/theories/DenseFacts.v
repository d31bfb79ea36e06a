(* DenseFacts.v : the dense propagation paths of jvp.py compute the first-order chain rule *)
From Verif Require Export JacFacts Jvp.
From Coq Require Import ZifyBool.
Set Implicit Arguments.

Section D.
Context {A : Type} {RA : CRing A}.
Add Ring Aring3 : (@rth A RA).
Open Scope cr_scope.

Lemma chain1_ext f xs p v w : (forall a q, (a < length xs)%nat -> inb q (sh (nth a xs nd0)) -> v a q = w a q) ->
  chain1 f xs p v = chain1 f xs p w.
Proof.
  intros H. apply sumn_ext. intros a Ha. apply sumL_ext. intros q Hq. apply allix_spec in Hq.
  rewrite H; auto.
Qed.
Lemma chain1_zero f xs p : chain1 f xs p (fun _ _ => 0) = 0.
Proof. apply sumn_zero. intros a Ha. apply sumL_zero. intros q Hq. ring. Qed.
Lemma xs_length (args : list (lapl A)) : length (xs_of args) = length args.
Proof. apply map_length. Qed.
Lemma xs_nth (args : list (lapl A)) a : (a < length args)%nat -> nth a (xs_of args) nd0 = lx (nth a args la0).
Proof. intros H. unfold xs_of. rewrite nth_map_in with (dx := la0); auto. Qed.
Lemma laps_nth (args : list (lapl A)) a : (a < length args)%nat -> nth a (laps_of args) nd0 = llap (nth a args la0).
Proof. intros H. unfold laps_of. rewrite nth_map_in with (dx := la0); auto. Qed.

Lemma dense_array_sound J n s D : jwf n s J -> (0 < n)%nat -> dense_array J = Some D ->
  exists K, sh D = K :: s /\ (K <= n)%nat /\
    (forall i p, (i < K)%nat -> inb p s -> at_ D (i :: p) = jent J i p) /\
    (forall i p, (K <= i)%nat -> inb p s -> jent J i p = 0).
Proof.
  intros Hwf Hn E.
  assert (nonempty J) as Hne.
  { unfold nonempty. unfold dense_array, max_n in E. destruct (jidx J) as [m|] eqn:EJ; auto.
    destruct (flat m) as [|z l] eqn:Ef; [discriminate|].
    assert (In z (flat m)) as Hz by (rewrite Ef; cbn; auto). apply flat_In in Hz.
    destruct Hz as (i & Hi & _). eauto. }
  destruct (dense_array_spec Hwf Hne Hn) as (D' & K & E' & H1 & H2 & H3 & H4).
  rewrite E in E'. inversion E'; subst D'. eauto.
Qed.

Lemma sequence_spec {X} (l : list (option X)) r : sequence l = Some r ->
  length r = length l /\ forall a d e, (a < length l)%nat -> nth a l e = Some (nth a r d).
Proof.
  revert r. induction l as [|o l IH]; cbn; intros r H.
  - inversion H; subst. split; auto. intros; lia.
  - destruct o as [x|]; [|discriminate]. cbn in H. destruct (sequence l) as [r'|]; [|discriminate].
    cbn in H. inversion H; subst. destruct (IH r' eq_refl) as [H1 H2]. split; [cbn; lia|].
    intros [|a] d e Ha; [reflexivity|]. cbn. apply H2. cbn in Ha. lia.
Qed.

Lemma vmap_jvp_at f xs K tans r p : length tans = length xs ->
  at_ (vmap_jvp f xs K tans) (r :: p) = chain1 f xs p (fun a q => at_ (nth a tans nd0) (r :: q)).
Proof.
  intros Hl. unfold vmap_jvp, chain1. cbn [stack at_ hd tl jvp1]. apply sumn_ext. intros a Ha.
  apply sumL_ext. intros q _. f_equal. rewrite nth_map_in with (dx := nd0) by lia. reflexivity.
Qed.

(* the padded dense Jacobians of all arguments *)
Lemma ext_spec n args dj : (0 < n)%nat -> args <> [] -> (forall a, In a args -> awf n a) ->
  dense_jacobian args = Some dj ->
  let ext := extend_jacobians dj in
  exists M, length ext = length args /\ maxl (map rows ext) = M /\ (M <= n)%nat /\
   (forall a, (a < length args)%nat -> sh (nth a ext nd0) = M :: sh (lx (nth a args la0)) /\
     (forall i q, inb q (sh (lx (nth a args la0))) -> (i < M)%nat ->
        at_ (nth a ext nd0) (i :: q) = jent (ljac (nth a args la0)) i q) /\
     (forall i q, inb q (sh (lx (nth a args la0))) -> (M <= i)%nat -> jent (ljac (nth a args la0)) i q = 0)).
Proof.
  intros Hn Hne Hwf Hd ext. unfold dense_jacobian in Hd.
  apply sequence_spec in Hd. destruct Hd as [Hl Hnth]. rewrite map_length in Hl, Hnth.
  assert (dj <> []) as Hdj by (intros ->; destruct args; cbn in Hl; congruence).
  destruct (extend_jacobians_spec Hdj) as [He Hext]. fold ext in He, Hext.
  set (M := maxl (map rows dj)) in *.
  assert (forall a, (a < length args)%nat -> exists K, sh (nth a dj nd0) = K :: sh (lx (nth a args la0)) /\ (K <= n)%nat /\
     (forall i p, (i < K)%nat -> inb p (sh (lx (nth a args la0))) -> at_ (nth a dj nd0) (i :: p) = jent (ljac (nth a args la0)) i p) /\
     (forall i p, (K <= i)%nat -> inb p (sh (lx (nth a args la0))) -> jent (ljac (nth a args la0)) i p = 0)) as HD.
  { intros a Ha. assert (awf n (nth a args la0)) as [W _] by (apply Hwf, nth_In; auto).
    apply (dense_array_sound W Hn). specialize (Hnth a nd0 None Ha).
    rewrite nth_map_in with (dx := la0) in Hnth by auto. auto. }
  assert (M <= n)%nat as HM.
  { unfold M. assert (forall x, In x (map rows dj) -> (x <= n)%nat) as H.
    { intros x Hx. apply in_map_iff in Hx. destruct Hx as (d & <- & Hd).
      apply (In_nth _ _ nd0) in Hd. destruct Hd as (a & Ha & <-). rewrite Hl in Ha.
      destruct (HD a Ha) as (K & HK & HKn & _). rewrite (rows_cons _ HK). auto. }
    revert H. generalize (map rows dj). intros l Hlist. induction l as [|x l IH]; cbn; [lia|].
    assert (x <= n)%nat by (apply Hlist; cbn; auto). assert (maxl l <= n)%nat by (apply IH; intros; apply Hlist; cbn; auto).
    fold (maxl l). lia. }
  exists M. split; [lia|]. split; [|split; [auto|]].
  - (* rows of the extended arrays *)
    assert (forall x, In x ext -> rows x = M) as Hr.
    { intros x Hx. apply (In_nth _ _ nd0) in Hx. destruct Hx as (a & Ha & <-). rewrite He in Ha.
      rewrite Hl in Ha. destruct (HD a Ha) as (K & HK & _).
      destruct (Hext a ltac:(lia) nd0 _ _ HK) as [Hs _]. apply (rows_cons _ Hs). }
    assert (ext <> []) as Hne2 by (intros E; rewrite E in He; cbn in He; destruct dj; cbn in *; congruence).
    destruct ext as [|x ext']; [congruence|].
    assert (forall l : list (nd A), (forall z, In z l -> rows z = M) -> (maxl (map rows l) <= M)%nat) as Hm.
    { induction l as [|z l IH]; cbn; intros HH; [lia|]. rewrite (HH z) by auto.
      assert (maxl (map rows l) <= M)%nat by (apply IH; auto). fold (maxl (map rows l)). lia. }
    cbn [map maxl fold_right]. rewrite (Hr x) by (cbn; auto).
    specialize (Hm ext' (fun z Hz => Hr z (or_intror Hz))). fold (maxl (map rows ext')). lia.
  - intros a Ha. destruct (HD a Ha) as (K & HK & HKn & H1 & H2).
    destruct (Hext a ltac:(lia) nd0 _ _ HK) as [Hs Hat]. split; [exact Hs|]. split.
    + intros i q Hq Hi. rewrite Hat by auto. destruct (Nat.ltb_spec i K).
      * apply H1; auto.
      * symmetry. apply H2; auto.
    + intros i q Hq Hi. apply H2; auto. assert (K <= M)%nat; [|lia].
      rewrite <- (rows_cons _ HK). apply maxl_ge. apply in_map. apply nth_In. lia.
Qed.

Lemma dspec_zero args f p i :
  (forall a q, (a < length args)%nat -> inb q (sh (lx (nth a args la0))) -> jent (ljac (nth a args la0)) i q = 0) ->
  dspec f args i p = 0.
Proof.
  intros H. unfold dspec. rewrite <- (chain1_zero f (xs_of args) p). apply chain1_ext.
  intros a q Ha Hq. rewrite xs_length in Ha. rewrite xs_nth in Hq by auto. auto.
Qed.

(* common conclusion of the dense paths *)
Definition dense_ok (n : nat) (f : op A) (args : list (lapl A)) (r : nd A * nd A * nd A) : Prop :=
  let '(y, g, l) := r in step_ok n f args (y, Jac g None, l).

Lemma dense_split_sound n f args r : (0 < n)%nat -> args <> [] -> (forall a, In a args -> awf n a) ->
  dense_split_jvp f args = Some r -> dense_ok n f args r.
Proof.
  intros Hn Hne Hwf H. unfold dense_split_jvp in H.
  destruct (dense_jacobian args) as [dj|] eqn:E; [|discriminate]. cbn [bind] in H. injection H as <-.
  destruct (ext_spec Hn Hne Hwf E) as (M & Hl & HM & HMn & Hext).
  set (ext := extend_jacobians dj) in *. rewrite HM.
  unfold dense_ok, step_ok. split; [auto|].
  assert (sh (vmap_jvp f (xs_of args) M ext) = M :: sh (o_fwd f (xs_of args))) as Hs by reflexivity.
  split; [|split; [reflexivity|split]].
  - exists M. cbn. auto.
  - intros i p Hp. rewrite (jent_dense _ _ _ Hs). destruct (Nat.ltb_spec i M) as [Hi|Hi].
    + rewrite vmap_jvp_at by (rewrite xs_length; auto). apply chain1_ext. intros a q Ha Hq.
      rewrite xs_length in Ha. rewrite xs_nth in Hq by auto.
      apply (Hext a Ha); auto.
    + symmetry. apply dspec_zero. intros a q Ha Hq. apply (Hext a Ha); auto.
  - intros p Hp. unfold jvp1, lspec, chain1. cbn [at_]. rewrite xs_length. apply sumn_ext. intros a Ha.
    apply sumL_ext. intros q _. rewrite laps_nth; auto.
Qed.

Lemma nth_map2 {X Y Z} (f : X -> Y -> Z) l m a dx dy dz : (a < length l)%nat -> (a < length m)%nat ->
  nth a (map2 f l m) dz = f (nth a l dx) (nth a m dy).
Proof.
  revert m a. induction l as [|x l IH]; intros [|y m] [|a]; cbn; intros; try lia; auto. apply IH; lia.
Qed.

Lemma dense_joint_sound n f args r : (0 < n)%nat -> args <> [] -> (forall a, In a args -> awf n a) ->
  dense_joint_jvp f args = Some r -> dense_ok n f args r.
Proof.
  intros Hn Hne Hwf H. unfold dense_joint_jvp in H.
  destruct (dense_jacobian args) as [dj|] eqn:E; [|discriminate]. cbn [bind] in H.
  destruct (ext_spec Hn Hne Hwf E) as (M & Hl & HM & HMn & Hext).
  set (ext := extend_jacobians dj) in *.
  set (tan := map2 (fun j l => concat0 0 [j; expand0 l]) ext (laps_of args)) in *.
  assert (length tan = length args) as Htl.
  { unfold tan. rewrite map2_length. unfold laps_of. rewrite map_length. lia. }
  assert (forall a, (a < length args)%nat ->
     sh (nth a tan nd0) = (M + 1)%nat :: sh (lx (nth a args la0)) /\
     (forall i q, (i < M)%nat -> at_ (nth a tan nd0) (i :: q) = at_ (nth a ext nd0) (i :: q)) /\
     (forall q, at_ (nth a tan nd0) (M :: q) = at_ (llap (nth a args la0)) q)) as Ht.
  { intros a Ha. destruct (Hext a Ha) as (Hs & _).
    assert (awf n (nth a args la0)) as [_ HL] by (apply Hwf, nth_In; auto).
    assert (sh (expand0 (llap (nth a args la0))) = 1%nat :: sh (lx (nth a args la0))) as HS2 by (cbn; rewrite HL; auto).
    unfold tan. rewrite nth_map2 with (dx := nd0) (dy := nd0) by (unfold laps_of; rewrite ?map_length; lia).
    rewrite laps_nth by auto. split; [|split].
    - apply concat2_sh; auto.
    - intros i q Hi. rewrite (concat2_at _ _ _ _ Hs HS2) by lia. destruct (Nat.ltb_spec i M); [auto|lia].
    - intros q. rewrite (concat2_at _ _ _ _ Hs HS2) by lia. destruct (Nat.ltb_spec M M); [lia|]. reflexivity. }
  assert (maxl (map rows tan) = M + 1)%nat as HK.
  { assert (forall x, In x tan -> rows x = M + 1)%nat as Hr.
    { intros x Hx. apply (In_nth _ _ nd0) in Hx. destruct Hx as (a & Ha & <-). rewrite Htl in Ha.
      destruct (Ht a Ha) as [Hs _]. apply (rows_cons _ Hs). }
    destruct tan as [|x tan']; [destruct args; cbn in *; congruence|].
    assert (forall l : list (nd A), (forall z, In z l -> rows z = (M + 1)%nat) -> (maxl (map rows l) <= M + 1)%nat) as Hm.
    { induction l as [|z l IH]; cbn; intros HH; [lia|]. rewrite (HH z) by auto.
      assert (maxl (map rows l) <= M + 1)%nat by (apply IH; auto). fold (maxl (map rows l)). lia. }
    cbn [map maxl fold_right]. rewrite (Hr x) by (cbn; auto).
    specialize (Hm tan' (fun z Hz => Hr z (or_intror Hz))). fold (maxl (map rows tan')). lia. }
  rewrite HK in H. injection H as <-.
  set (yt := vmap_jvp f (xs_of args) (M + 1) tan).
  assert (rows yt = (M + 1)%nat) as Hry by reflexivity.
  unfold dense_ok, step_ok. split; [auto|].
  assert (sh (butlast yt) = M :: sh (o_fwd f (xs_of args))) as Hs.
  { unfold butlast. rewrite Hry. cbn. f_equal. lia. }
  split; [|split; [reflexivity|split]].
  - exists M. cbn [jdata jidx]. split; auto.
  - intros i p Hp. rewrite (jent_dense _ _ _ Hs). destruct (Nat.ltb_spec i M) as [Hi|Hi].
    + cbn [butlast at_]. unfold yt. rewrite vmap_jvp_at by (rewrite xs_length; auto). apply chain1_ext. intros a q Ha Hq.
      rewrite xs_length in Ha. rewrite xs_nth in Hq by auto.
      destruct (Ht a Ha) as (_ & H1 & _). rewrite H1 by auto. apply (Hext a Ha); auto.
    + symmetry. apply dspec_zero. intros a q Ha Hq. apply (Hext a Ha); auto.
  - intros p Hp. unfold lastrow, row. cbn [at_]. rewrite Hry. replace (M + 1 - 1)%nat with M by lia.
    unfold yt. rewrite vmap_jvp_at by (rewrite xs_length; auto). apply chain1_ext. intros a q Ha Hq.
    rewrite xs_length in Ha. destruct (Ht a Ha) as (_ & _ & H2). apply H2.
Qed.

Lemma chain1_elem f xs p v : elementwise f xs -> inb p (sh (o_fwd f xs)) ->
  chain1 f xs p v = sumn (length xs) (fun a => let q := bproj (sh (nth a xs nd0)) p in o_d f xs p a q * v a q).
Proof.
  intros He Hp. apply sumn_ext. intros a Ha. destruct (He a Ha) as [Hb Hz]. cbn zeta.
  rewrite (@sumL_single _ _ _ _ (bproj (sh (nth a xs nd0)) p)); [reflexivity| | |].
  - apply allix_NoDup.
  - apply allix_spec. eapply bproj_inb; eauto.
  - intros q Hq Hn. apply allix_spec in Hq. rewrite Hz by auto. ring.
Qed.
Lemma vjp1_elem f x p : elementwise f [x] -> sh (o_fwd f [x]) = sh x -> inb p (sh x) ->
  at_ (vjp1 f x (ones_like (o_fwd f [x]))) p = o_d f [x] p 0%nat p.
Proof.
  intros He Hs Hp. unfold vjp1. cbn [at_ ones_like]. rewrite Hs.
  rewrite (@sumL_single _ _ _ _ p).
  - ring.
  - apply allix_NoDup.
  - apply allix_spec; auto.
  - intros q Hq Hn. apply allix_spec in Hq. destruct (He 0%nat (Nat.lt_0_succ _)) as [_ Hz]. cbn [nth] in Hz.
    rewrite Hz; [ring| |auto|].
    + rewrite Hs. auto.
    + rewrite bproj_same by auto. auto.
Qed.
Lemma bto_tail k s : bto s (k :: s).
Proof. exists [k], s. split; auto. induction s; constructor; auto. Qed.
Lemma bproj_tail s k r p : inb p s -> r < k -> bproj s (r :: p) = p.
Proof.
  intros Hp Hr. pose proof (inb_length Hp) as Hl. rewrite <- (bproj_same Hp) at 2. unfold bproj. cbn [length].
  rewrite Hl, Nat.sub_diag. replace (S (length s) - length s)%nat with 1%nat by lia. reflexivity.
Qed.
(* jac[...] * data with data : (k, shape) *)
Lemma bin_row_mul (j d : nd A) k s : sh j = s -> sh d = k :: s ->
  exists g, bin rmul j d = Some g /\ sh g = k :: s /\
    forall r p, (r < k)%nat -> inb p s -> at_ g (r :: p) = at_ j p * at_ d (r :: p).
Proof.
  intros Hj Hd. unfold bin. rewrite Hj, Hd. rewrite bshape2_bto_l by apply bto_tail. cbn [bind].
  eexists. split; [reflexivity|]. split; [reflexivity|]. intros r p Hr Hp. cbn [at_].
  rewrite (bproj_tail Hp Hr). rewrite bproj_same by (apply inb_cons; auto). reflexivity.
Qed.

Lemma sheq_eq s t : sheq s t = true <-> s = t.
Proof. unfold sheq. destruct (list_eq_dec Nat.eq_dec s t); split; congruence. Qed.

Lemma dense_elementwise_sound n f a r : (0 < n)%nat -> awf n a -> elementwise f [lx a] ->
  dense_elementwise_jvp f a = Some r -> dense_ok n f [a] r.
Proof.
  intros Hn Ha He H. unfold dense_elementwise_jvp in H.
  destruct (sheq (sh (o_fwd f [lx a])) (sh (lx a))) eqn:Es; cbn [negb] in H.
  - apply sheq_eq in Es. destruct Ha as [Hj Hl].
    destruct (dense_array (ljac a)) as [D|] eqn:ED; [|discriminate]. cbn [bind] in H.
    destruct (dense_array_sound Hj Hn ED) as (K & HD & HK & H1 & H2).
    set (j := vjp1 f (lx a) (ones_like (o_fwd f [lx a]))) in *.
    destruct (@bin_row_mul j D K (sh (lx a))) as (g & Eg & Sg & Ag); auto.
    destruct (@bin_same _ rmul j (llap a) (sh (lx a))) as (l & El & Sl & Al); auto.
    rewrite Eg, El in H. cbn [bind] in H. injection H as <-.
    unfold dense_ok, step_ok. cbn [xs_of map]. split; [auto|]. rewrite Es. split; [|split; [auto|split]].
    + exists K. cbn. auto.
    + intros i p Hp. rewrite (jent_dense _ _ _ Sg). unfold dspec. cbn [xs_of map].
      rewrite chain1_elem by (auto; rewrite Es; auto). unfold sumn. cbn [length seq sumL nth]. rewrite bproj_same by auto.
      destruct (Nat.ltb_spec i K).
      * rewrite Ag by auto. unfold j. rewrite vjp1_elem by auto. rewrite H1 by auto. ring.
      * rewrite H2 by auto. ring.
    + intros p Hp. unfold lspec. cbn [xs_of map]. rewrite chain1_elem by (auto; rewrite Es; auto).
      unfold sumn. cbn [length seq sumL nth]. rewrite bproj_same by auto.
      rewrite Al by auto. unfold j. rewrite vjp1_elem by auto. ring.
  - apply (@dense_split_sound n f [a]); auto; [congruence|]. intros b [<-|[]]; auto.
Qed.

(* dense_jvp: elementwise structure is only needed when in_axes = () *)
Theorem dense_jvp_sound n f args fl ax r : (0 < n)%nat -> args <> [] -> (forall a, In a args -> awf n a) ->
  (axes_nil ax = true -> elementwise f (xs_of args)) ->
  dense_jvp f args fl ax = Some r -> step_ok n f args r /\ weak (snd (fst r)) = false.
Proof.
  intros Hn Hne Hwf He H. unfold dense_jvp in H.
  assert (exists y g l, r = (y, Jac g None, l) /\ dense_ok n f args (y, g, l)) as (y & g & l & -> & Hr).
  { assert (forall o : option (nd A * nd A * nd A), (forall t, o = Some t -> dense_ok n f args t) ->
       (let* (yg, l) := o in let (y, g) := yg : nd A * nd A in Some (y, Jac g None, l)) = Some r ->
       exists y g l, r = (y, Jac g None, l) /\ dense_ok n f args (y, g, l)) as HH.
    { intros [[[y g] l]|] Ho Hb; cbn in Hb; [|discriminate]. inversion Hb; subst. exists y, g, l.
      split; auto. }
    destruct args as [|a [|b args]]; [congruence| |].
    - destruct (axes_nil ax) eqn:Ea.
      + eapply HH; [|exact H]. intros t Ht. apply dense_elementwise_sound; auto. apply Hwf; cbn; auto.
      + destruct (has JOIN_JVP fl); (eapply HH; [|exact H]); intros t Ht.
        * apply dense_joint_sound; auto.
        * apply dense_split_sound; auto.
    - destruct (has JOIN_JVP fl); (eapply HH; [|exact H]); intros t Ht.
      + apply dense_joint_sound; auto.
      + apply dense_split_sound; auto. }
  split; [exact Hr|reflexivity].
Qed.
End D.
