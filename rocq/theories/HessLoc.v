(* HessLoc.v : the second-order term at one batch element. *)
From Verif Require Export HessFacts Prims.
Set Implicit Arguments.

Section Loc.
Context {A : Type} {RA : CRing A}.
Add Ring Aring_Loc : (@rth A RA).
Open Scope cr_scope.

Lemma ixeqb_refl q : ixeqb q q = true.
Proof. apply ixeqb_eq. reflexivity. Qed.
(* the requested input of row r *)
Definition sgo (o : nd Z) (r : nat) : option nat := if (0 <=? at_ o [r])%Z then Some (Z.to_nat (at_ o [r])) else None.
(* what the index array of one batch element must satisfy: distinct valid inputs *)
Definition idx_ok (n R : nat) (o : nd Z) : Prop :=
  sh o = [R] /\ (forall r, (r < R)%nat -> (-1 <= at_ o [r] < Z.of_nat n)%Z) /\
  (forall r r', (r < R)%nat -> (r' < R)%nat -> (0 <= at_ o [r])%Z -> at_ o [r] = at_ o [r'] -> r = r').
Lemma sgo_range n R o r i : idx_ok n R o -> (r < R)%nat -> sgo o r = Some i -> (i < n)%nat.
Proof. intros (_ & H & _) Hr E. unfold sgo in E. specialize (H r Hr). destruct (Z.leb_spec 0 (at_ o [r])); [|discriminate]. injection E as <-. lia. Qed.
Lemma sgo_inj n R o r r' i : idx_ok n R o -> (r < R)%nat -> (r' < R)%nat -> sgo o r = Some i -> sgo o r' = Some i -> r = r'.
Proof.
  intros (_ & _ & H) Hr Hr' E E'. unfold sgo in *. destruct (Z.leb_spec 0 (at_ o [r])); [|discriminate]. destruct (Z.leb_spec 0 (at_ o [r'])); [|discriminate].
  apply (H r r'); auto. injection E as E. injection E' as E'. lia.
Qed.
Definition zrow (o : nd Z) (R : nat) : list Z := map (fun r => at_ o [r]) (seq 0 R).
Lemma zrow_nth o R r : (r < R)%nat -> nth r (zrow o R) (-1)%Z = at_ o [r].
Proof. intros H. unfold zrow. rewrite nth_map_in with (dx := 0%nat) by (rewrite seq_length; auto). rewrite seq_nth by auto. reflexivity. Qed.
Lemma rowval_weak n R o (J : jac A) r q : idx_ok n R o -> (r < R)%nat -> weak J = true ->
  rowval (zrow o R) J r q = match sgo o r with Some i => jent J i q | None => 0 end.
Proof.
  intros (H0 & H1 & H2) Hr Hw. unfold rowval, sgo. rewrite Hw, zrow_nth by auto. destruct (Z.leb_spec 0 (at_ o [r])) as [Hz|Hz]; cbn [andb]; [|reflexivity].
  rewrite (@zpos_unique (at_ o [r]) (zrow o R) r (-1)%Z).
  - rewrite Nat.eqb_refl. reflexivity.
  - unfold zrow. apply in_map_iff. exists r. split; auto. apply in_seq. lia.
  - unfold zrow. rewrite map_length, seq_length. auto.
  - apply zrow_nth; auto.
  - unfold zrow at 1. rewrite map_length, seq_length. intros t Ht E. rewrite zrow_nth in E by auto. symmetry. apply H2; auto.
Qed.
Lemma rowval_dense R o (J : jac A) r q : (r < R)%nat -> weak J = false -> (0 <= at_ o [r] < Z.of_nat (rows (jdata J)))%Z ->
  rowval (zrow o R) J r q = match sgo o r with Some i => jent J i q | None => 0 end.
Proof.
  intros Hr Hw Hz. unfold rowval, sgo. rewrite Hw, zrow_nth by auto. destruct (Z.leb_spec 0 (at_ o [r])); [|lia].
  unfold jent. unfold weak in Hw. destruct (jidx J); [discriminate|]. destruct (Nat.ltb_spec (Z.to_nat (at_ o [r])) (rows (jdata J))); [|lia].
  unfold wrap_ix. destruct (Z.ltb_spec (at_ o [r]) 0); [lia|]. f_equal. f_equal. f_equal. lia.
Qed.

(* ---------- general functions ---------- *)
Theorem general_loc_none n f c2r (args : list (lapl A)) r : (0 < n)%nat -> args <> [] -> (forall a, In a args -> awf n a) ->
  general_jhj f c2r args None = Some r ->
  sh r = sh (o_fwd f (xs_of args)) /\ forall c, at_ r c = hspec n f args c.
Proof.
  intros Hn Hne Hw H. destruct (get_reduced_jacobians (map (@ljac A) args) None) as [g2|] eqn:E; [|unfold general_jhj in H; rewrite E in H; discriminate].
  destruct (red_none Hn Hne Hw E) as (R & HR & Hok & Hz). destruct (general_jhj_sum f c2r _ Hne E Hok H) as [H1 H2]. split; auto.
  intros c. rewrite H2. unfold hspec. symmetry. apply sumn_ge; auto. intros i Hi Hin. apply quad_zero. rewrite xs_length. intros a q Ha Hq. rewrite xs_nth in Hq by auto. apply Hz; auto.
Qed.
Theorem general_loc_some n f c2r (args : list (lapl A)) o R r : args <> [] -> (forall a, In a args -> awf n a) -> idx_ok n R o ->
  (forall i, (i < n)%nat -> (forall k, (k < R)%nat -> sgo o k <> Some i) -> forall a q, (a < length args)%nat -> inb q (sh (lx (nth a args la0))) -> jent (ljac (nth a args la0)) i q = 0) ->
  (forall a, (a < length args)%nat -> weak (ljac (nth a args la0)) = true \/ forall k q, (k < R)%nat -> inb q (sh (lx (nth a args la0))) -> (0 <= at_ o [k] < Z.of_nat (rows (jdata (ljac (nth a args la0)))))%Z) ->
  general_jhj f c2r args (Some o) = Some r ->
  sh r = sh (o_fwd f (xs_of args)) /\ forall c, at_ r c = hspec n f args c.
Proof.
  intros Hne Hw Hi Hcov Hd H. destruct (get_reduced_jacobians (map (@ljac A) args) (Some o)) as [g2|] eqn:E; [|unfold general_jhj in H; rewrite E in H; discriminate].
  destruct (@red_some _ _ n args o R g2 Hw (proj1 Hi) E) as (HR & Hok). destruct (general_jhj_sum f c2r _ Hne E Hok H) as [H1 H2]. split; auto.
  intros c. rewrite H2. unfold hspec. rewrite <- (@rowsum _ _ n R (sgo o)).
  - apply sumn_ext. intros k Hk. fold (zrow o R).
    assert (HV : forall a q, (a < length args)%nat -> inb q (sh (lx (nth a args la0))) -> rowval (zrow o R) (ljac (nth a args la0)) k q = match sgo o k with Some i => jent (ljac (nth a args la0)) i q | None => 0 end).
    { intros a q Ha Hq. destruct (weak (ljac (nth a args la0))) eqn:Ew; [eapply rowval_weak; eauto|]. destruct (Hd a Ha) as [Hc|Hc]; [congruence|]. apply rowval_dense; auto. apply (Hc k q); auto. }
    destruct (sgo o k) as [i|].
    + apply quad_ext; rewrite xs_length; intros a q Ha Hq; rewrite xs_nth in Hq by auto; apply HV; auto.
    + apply quad_zero. rewrite xs_length. intros a q Ha Hq. rewrite xs_nth in Hq by auto. apply HV; auto.
  - intros k i Hk Hs. eapply sgo_range; eauto.
  - intros k k' i Hk Hk' Hs Hs'. eapply sgo_inj; eauto.
  - intros i Hin Hn. apply quad_zero. rewrite xs_length. intros a q Ha Hq. rewrite xs_nth in Hq by auto. apply Hcov; auto.
Qed.

(* ---------- products ---------- *)
Definition jdot (a b : lapl A) (i : nat) : A := sumL (allix (sh (lx a))) (fun q => jent (ljac a) i q * jent (ljac b) i q).
Lemma sumn2 (F : nat -> A) : sumn 2 F = F 0%nat + F 1%nat.
Proof. rewrite !sumn_S. unfold sumn. cbn. ring. Qed.
Lemma quad_dot f (xs : list (nd A)) p u v : is_dot f xs -> inb p (sh (o_fwd f xs)) ->
  quad f xs p u v = sumL (allix (sh (nth 0%nat xs nd0))) (fun q => u 0%nat q * v 1%nat q + u 1%nat q * v 0%nat q).
Proof.
  intros (Hl & Hs & HH) Hp. unfold quad. rewrite Hl. rewrite <- Hs in HH.
  set (s := sh (nth 0%nat xs nd0)) in *.
  assert (E0 : forall q, inb q s -> sumL (allix s) (fun r => o_h f xs p 0%nat q 1%nat r * (u 0%nat q * v 1%nat r)) = u 0%nat q * v 1%nat q).
  { intros q Hq. rewrite (@sumL_single _ _ _ _ q); [|apply allix_NoDup|apply allix_spec; auto|].
    - destruct (HH p q q Hp Hq Hq) as (_ & _ & -> & _). rewrite ixeqb_refl. ring.
    - intros r Hr Hne. apply allix_spec in Hr. destruct (HH p q r Hp Hq Hr) as (_ & _ & -> & _). destruct (ixeqb q r) eqn:E; [apply ixeqb_eq in E; congruence|ring]. }
  assert (E1 : forall q, inb q s -> sumL (allix s) (fun r => o_h f xs p 1%nat q 0%nat r * (u 1%nat q * v 0%nat r)) = u 1%nat q * v 0%nat q).
  { intros q Hq. rewrite (@sumL_single _ _ _ _ q); [|apply allix_NoDup|apply allix_spec; auto|].
    - destruct (HH p q q Hp Hq Hq) as (_ & _ & _ & ->). rewrite ixeqb_refl. ring.
    - intros r Hr Hne. apply allix_spec in Hr. destruct (HH p r q Hp Hr Hq) as (_ & _ & _ & ->). destruct (ixeqb r q) eqn:E; [apply ixeqb_eq in E; congruence|ring]. }
  assert (Z0 : forall q, inb q s -> sumL (allix s) (fun r => o_h f xs p 0%nat q 0%nat r * (u 0%nat q * v 0%nat r)) = 0).
  { intros q Hq. apply sumL_zero. intros r Hr. apply allix_spec in Hr. destruct (HH p q r Hp Hq Hr) as (-> & _). ring. }
  assert (Z1 : forall q, inb q s -> sumL (allix s) (fun r => o_h f xs p 1%nat q 1%nat r * (u 1%nat q * v 1%nat r)) = 0).
  { intros q Hq. apply sumL_zero. intros r Hr. apply allix_spec in Hr. destruct (HH p q r Hp Hq Hr) as (_ & -> & _). ring. }
  rewrite sumn2. rewrite <- Hs. fold s.
  rewrite (@sumL_ext _ _ _ (allix s) (fun q => sumn 2 _) (fun q => u 0%nat q * v 1%nat q)).
  2:{ intros q Hq. apply allix_spec in Hq. rewrite sumn2. rewrite <- Hs. fold s. rewrite E0, Z0 by auto. ring. }
  rewrite (@sumL_ext _ _ _ (allix s) (fun q => sumn 2 _) (fun q => u 1%nat q * v 0%nat q)).
  2:{ intros q Hq. apply allix_spec in Hq. rewrite sumn2. rewrite <- Hs. fold s. rewrite E1, Z1 by auto. ring. }
  rewrite sumL_add. reflexivity.
Qed.

Lemma einsum2_red s R g (x y : nd A) : red_ok [s; s] R g [x; y] ->
  einsum2 x y = Some (sumn R (fun r => sumL (allix s) (fun q => g 0%nat r q * g 1%nat r q))).
Proof.
  intros [_ H]. destruct (H 0%nat) as [X1 X2]; [cbn; lia|]. destruct (H 1%nat) as [Y1 Y2]; [cbn; lia|]. cbn [nth] in *.
  unfold einsum2. rewrite X1, Y1, bshape2_refl. cbn [bind]. f_equal. rewrite sum_allix_cons. apply sumn_ext. intros r Hr.
  rewrite sum_allix_cons. rewrite <- (sum_unravel s). apply sumn_ext. intros d Hd. cbn [allix sumL fold_right].
  assert (Hin : inb [r; d] [R; prod s]) by (repeat constructor; auto).
  rewrite !bproj_same by auto. rewrite <- (ravel_unravel s Hd) at 1 2. rewrite X2, Y2 by (auto; apply unravel_inb; auto). unfold sumL. cbn [fold_right]. ring.
Qed.
Lemma hspec_dot n f (args : list (lapl A)) c : is_dot f (xs_of args) -> inb c (sh (o_fwd f (xs_of args))) ->
  hspec n f args c = (1 + 1) * sumn n (jdot (nth 0%nat args la0) (nth 1%nat args la0)).
Proof.
  intros Hd Hc. unfold hspec. assert (L2 : length args = 2%nat) by (destruct Hd as [Hd _]; rewrite xs_length in Hd; auto).
  unfold sumn at 2. rewrite <- sumL_scale. apply sumn_ext. intros i Hi. rewrite (quad_dot _ _ Hd Hc). unfold jdot. rewrite xs_nth by lia. rewrite <- sumL_scale.
  apply sumL_ext. intros q _. ring.
Qed.
Lemma dot_value n f (args : list (lapl A)) idx r R g g2 : is_dot f (xs_of args) ->
  get_reduced_jacobians (map (@ljac A) args) idx = Some g2 -> red_ok (map (@sh A) (xs_of args)) R g g2 ->
  sumn R (fun r => sumL (allix (sh (lx (nth 0%nat args la0)))) (fun q => g 0%nat r q * g 1%nat r q)) = sumn n (jdot (nth 0%nat args la0) (nth 1%nat args la0)) ->
  dot_jhj f args idx = Some r ->
  sh r = sh (o_fwd f (xs_of args)) /\ forall c, inb c (sh r) -> at_ r c = hspec n f args c.
Proof.
  intros Hd Hg Hok HS H. pose proof Hd as (L2 & Hs & _). rewrite xs_length in L2.
  destruct args as [|a [|b [|? ?]]]; try discriminate L2. clear L2. cbn [xs_of map nth lx] in Hs.
  unfold dot_jhj, trace_jac_jacT in H. cbn [map] in Hg. rewrite Hg in H. cbn [bind] in H.
  destruct g2 as [|x [|y [|? ?]]]; try discriminate H. cbn [xs_of map] in Hok. rewrite <- Hs in Hok.
  rewrite (einsum2_red Hok) in H. cbn [bind] in H. cbn [nth] in HS. destruct (Nat.eqb _ 1); [|discriminate]. injection H as <-. cbn [sh at_]. split; [reflexivity|].
  intros c Hc. rewrite (@hspec_dot n f [a; b] c Hd Hc). cbn [nth]. rewrite HS. reflexivity.
Qed.
Theorem dot_loc_none n f (args : list (lapl A)) r : (0 < n)%nat -> (forall a, In a args -> awf n a) -> is_dot f (xs_of args) ->
  dot_jhj f args None = Some r ->
  sh r = sh (o_fwd f (xs_of args)) /\ forall c, inb c (sh r) -> at_ r c = hspec n f args c.
Proof.
  intros Hn Hw Hd H. pose proof Hd as (L2 & Hs & _). rewrite xs_length in L2. assert (Hne : args <> []) by (intros ->; discriminate).
  destruct (get_reduced_jacobians (map (@ljac A) args) None) as [g2|] eqn:E.
  2:{ destruct args as [|a [|b [|? ?]]]; try discriminate L2. unfold dot_jhj, trace_jac_jacT in H. cbn [map] in E. rewrite E in H. discriminate. }
  destruct (red_none Hn Hne Hw E) as (R & HR & Hok & Hz). eapply (@dot_value n f args None r R _ g2 Hd E Hok); auto.
  cbn beta. unfold jdot. symmetry. apply sumn_ge; auto. intros i Hi Hin. apply sumL_zero. intros q Hq. apply allix_spec in Hq. rewrite Hz by (auto; lia). ring.
Qed.
Theorem dot_loc_some n f (args : list (lapl A)) o R r : (forall a, In a args -> awf n a) -> idx_ok n R o -> is_dot f (xs_of args) ->
  (forall i, (i < n)%nat -> (forall k, (k < R)%nat -> sgo o k <> Some i) -> exists a, (a < length args)%nat /\ forall q, inb q (sh (lx (nth a args la0))) -> jent (ljac (nth a args la0)) i q = 0) ->
  (exists a, (a < length args)%nat /\ weak (ljac (nth a args la0)) = true) ->
  (forall a, (a < length args)%nat -> weak (ljac (nth a args la0)) = true \/ forall k, (k < R)%nat -> (0 <= at_ o [k])%Z -> (at_ o [k] < Z.of_nat (rows (jdata (ljac (nth a args la0)))))%Z) ->
  dot_jhj f args (Some o) = Some r ->
  sh r = sh (o_fwd f (xs_of args)) /\ forall c, inb c (sh r) -> at_ r c = hspec n f args c.
Proof.
  intros Hw Hi Hd Hcov Hwk Hdn H. pose proof Hd as (L2 & Hs & _). rewrite xs_length in L2. assert (Hne : args <> []) by (intros ->; discriminate).
  destruct (get_reduced_jacobians (map (@ljac A) args) (Some o)) as [g2|] eqn:E.
  2:{ destruct args as [|a [|b [|? ?]]]; try discriminate L2. unfold dot_jhj, trace_jac_jacT in H. cbn [map] in E. rewrite E in H. discriminate. }
  destruct (@red_some _ _ n args o R g2 Hw (proj1 Hi) E) as (HR & Hok).
  eapply (@dot_value n f args (Some o) r R _ g2 Hd E Hok); auto. cbn beta. fold (zrow o R).
  rewrite <- (@rowsum _ _ n R (sgo o)).
  - apply sumn_ext. intros k Hk.
    assert (HV : forall a q, (a < length args)%nat -> (weak (ljac (nth a args la0)) = true \/ (0 <= at_ o [k])%Z) ->
       rowval (zrow o R) (ljac (nth a args la0)) k q = match sgo o k with Some i => jent (ljac (nth a args la0)) i q | None => 0 end).
    { intros a q Ha Hor. destruct (weak (ljac (nth a args la0))) eqn:Ew; [eapply rowval_weak; eauto|]. destruct Hor as [Hor|Hor]; [discriminate|].
      destruct (Hdn a Ha) as [Hc|Hc]; [congruence|]. apply rowval_dense; auto. }
    unfold jdot. unfold sgo in *. destruct (Z.leb_spec 0 (at_ o [k])) as [Hz|Hz].
    + apply sumL_ext. intros q _. rewrite !HV by (auto; lia). reflexivity.
    + apply sumL_zero. intros q _. destruct Hwk as (a & Ha & Hwa). assert (Ha' : a = 0%nat \/ a = 1%nat) by lia. destruct Ha' as [-> | ->]; rewrite (HV _ q Ha (or_introl Hwa)); ring.
  - intros k i Hk Hks. eapply sgo_range; eauto.
  - intros k k' i Hk Hk' Hks Hks'. eapply sgo_inj; eauto.
  - intros i Hin Hn. destruct (Hcov i Hin Hn) as (a & Ha & Hz). unfold jdot. apply sumL_zero. intros q Hq. apply allix_spec in Hq.
    rewrite !xs_nth in Hs by lia. assert (Ha' : a = 0%nat \/ a = 1%nat) by lia. destruct Ha' as [-> | ->]; rewrite Hz by (rewrite <- ?Hs; auto); ring.
Qed.
End Loc.
