(* HessDot.v : products (FunctionFlags.MULTIPLICATION and DOT_PRODUCT), including the removal of empty locations. *)
From Verif Require Export HessVmap.
Set Implicit Arguments.

(* ---------- slices along the last axis ---------- *)
Lemma sax_last m : sax (S m) [m] = [m].
Proof.
  unfold sax. rewrite seq_S, filter_app. cbn [filter Nat.add]. replace (mem m [m]) with true by (symmetry; apply mem_In; cbn; auto).
  assert (E : filter (fun d => mem d [m]) (seq 0 m) = []); [|rewrite E; reflexivity].
  assert (G : forall l, (forall d, In d l -> d < m) -> filter (fun d => mem d [m]) l = []).
  { induction l as [|d l IH]; intros H; [reflexivity|]. cbn [filter]. destruct (mem d [m]) eqn:E; [|apply IH; intros; apply H; cbn; auto].
    apply mem_In in E. cbn in E. specialize (H d (or_introl eq_refl)). lia. }
  apply G. intros d Hd. apply in_seq in Hd. lia.
Qed.
Lemma keepax_last m : keepax (S m) [m] = seq 0 m.
Proof.
  unfold keepax. rewrite seq_S, filter_app. cbn [filter Nat.add]. replace (mem m [m]) with true by (symmetry; apply mem_In; cbn; auto). cbn [negb]. rewrite app_nil_r.
  assert (G : forall l, (forall d, In d l -> d < m) -> filter (fun d => negb (mem d [m])) l = l).
  { induction l as [|d l IH]; intros H; [reflexivity|]. cbn [filter]. destruct (mem d [m]) eqn:E.
    - apply mem_In in E. cbn in E. specialize (H d (or_introl eq_refl)). lia.
    - cbn [negb]. rewrite IH; [reflexivity|]. intros; apply H; cbn; auto. }
  apply G. intros d Hd. apply in_seq in Hd. lia.
Qed.
Lemma permute_seq_app (p : list nat) t : permute (seq 0 (length p)) (p ++ t) = p.
Proof. unfold permute. etransitivity; [|apply (map_nth_seq p 0)]. apply map_ext_in. intros d Hd. apply in_seq in Hd. apply app_nth1. lia. Qed.
Lemma permute_last (p : list nat) k : permute [length p] (p ++ [k]) = [k].
Proof. unfold permute. cbn [map]. rewrite app_nth2, Nat.sub_diag by lia. reflexivity. Qed.
Lemma reduced_last pre k : reduced_shape (pre ++ [k]) [length pre] = pre.
Proof. unfold reduced_shape. rewrite app_length. cbn [length]. rewrite Nat.add_1_r, keepax_last. apply permute_seq_app. Qed.
Lemma slice_last pre k : permute (sax (length (pre ++ [k])) [length pre]) (pre ++ [k]) = [k].
Proof. rewrite app_length. cbn [length]. rewrite Nat.add_1_r, sax_last. apply permute_last. Qed.
Lemma wv_last pre k b t : length pre <= length b -> wv (pre ++ [k]) [length pre] b [t] = bproj pre b ++ [t].
Proof.
  intros Hl. unfold wv. rewrite reduced_sax, reduced_last. rewrite app_length. cbn [length]. rewrite Nat.add_1_r, sax_last.
  apply nth_ext with (d := 0) (d' := 0); [rewrite weave_length, app_length, bproj_length by auto; cbn; lia|].
  rewrite weave_length. intros d Hd. rewrite weave_nth by auto. unfold keep_pos.
  destruct (Nat.eq_dec d (length pre)) as [->|Hne].
  - assert (existsb (Nat.eqb (length pre)) [length pre] = true) as -> by (cbn; rewrite Nat.eqb_refl; reflexivity). cbn [pos].
    rewrite Nat.eqb_refl. cbn [nth]. rewrite app_nth2 by (rewrite bproj_length by auto; lia). rewrite bproj_length, Nat.sub_diag by auto. reflexivity.
  - assert (existsb (Nat.eqb d) [length pre] = false) as -> by (cbn; destruct (Nat.eqb_spec d (length pre)); [congruence|reflexivity]).
    rewrite app_nth1 by (rewrite bproj_length by auto; lia).
    assert (E : filter (fun d => negb (existsb (Nat.eqb d) [length pre])) (seq 0 (S (length pre))) = seq 0 (length pre)) by (apply keepax_last).
    rewrite E. f_equal. assert (G : pos (nth d (seq 0 (length pre)) 0) (seq 0 (length pre)) = d) by (apply pos_nth; [apply seq_NoDup|rewrite seq_length; lia]).
    rewrite seq_nth in G by lia. exact G.
Qed.

(* ---------- gathering the surviving locations ---------- *)
Definition advb (pre : list nat) : bool := existsb (fun n => negb (Nat.eqb n 1)) pre.
Definition gsh (pre : list nat) (L k : nat) : shape := (if advb pre then [L] else []) ++ [k].
Definition gmap (pre : list nat) (locs : list ix) (p : ix) : ix :=
  if advb pre then bproj pre (nth (hd 0 p) locs []) ++ tl p else bproj pre (repeat 0 (length pre)) ++ p.
Lemma adv_pre pre k : existsb (fun d => negb (Nat.eqb (nth d (pre ++ [k]) 0) 1)) (seq 0 (length pre)) = advb pre.
Proof.
  unfold advb. transitivity (existsb (fun n => negb (Nat.eqb n 1)) (map (fun i => nth i pre 0) (seq 0 (length pre)))); [|rewrite map_nth_seq; reflexivity].
  assert (EM : forall (g : nat -> nat) l, existsb (fun n => negb (Nat.eqb n 1)) (map g l) = existsb (fun d => negb (Nat.eqb (g d) 1)) l) by (induction l; cbn; congruence). rewrite EM.
  assert (G : forall l, (forall d, In d l -> d < length pre) -> existsb (fun d => negb (Nat.eqb (nth d (pre ++ [k]) 0) 1)) l = existsb (fun d => negb (Nat.eqb (nth d pre 0) 1)) l).
  { induction l as [|d l IH]; intros H; [reflexivity|]. cbn [existsb]. rewrite IH by (intros; apply H; cbn; auto). rewrite app_nth1; [reflexivity|]. apply H; cbn; auto. }
  apply G. intros d Hd. apply in_seq in Hd. lia.
Qed.
Lemma src_bproj pre k b : length b = length pre -> map (fun d => if Nat.eqb (nth d (pre ++ [k]) 0) 1 then 0 else nth d b 0) (seq 0 (length pre)) = bproj pre b.
Proof.
  intros Hl. apply nth_ext with (d := 0) (d' := 0); [rewrite map_length, seq_length, bproj_length; auto; lia|]. rewrite map_length, seq_length. intros d Hd.
  rewrite (@nth_map_in _ _ (fun d => if Nat.eqb (nth d (pre ++ [k]) 0) 1 then 0 else nth d b 0) _ _ 0) by (rewrite seq_length; auto). rewrite seq_nth by auto. cbn [Nat.add].
  rewrite app_nth1 by auto. rewrite bproj_nth by lia. rewrite Hl, Nat.sub_diag. reflexivity.
Qed.
Lemma ones_bproj pre : advb pre = false -> bproj pre (repeat 0 (length pre)) = repeat 0 (length pre).
Proof.
  intros _. apply nth_ext with (d := 0) (d' := 0); [rewrite bproj_length; rewrite !repeat_length; auto|]. rewrite bproj_length by (rewrite repeat_length; auto). intros d Hd.
  rewrite bproj_nth by (rewrite ?repeat_length; auto). rewrite repeat_length, Nat.sub_diag. cbn [Nat.add]. destruct (Nat.eqb _ 1); [|reflexivity].
  symmetry. apply nth_repeat.
Qed.
Lemma bproj_ones' pre b : advb pre = false -> length b = length pre -> bproj pre b = repeat 0 (length pre).
Proof.
  intros Ha Hl. apply nth_ext with (d := 0) (d' := 0); [rewrite bproj_length, repeat_length; lia|]. rewrite bproj_length by lia. intros d Hd. rewrite bproj_nth by lia.
  rewrite nth_repeat. destruct (Nat.eqb_spec (nth d pre 0) 1) as [E|E]; [reflexivity|]. exfalso.
  assert (advb pre = true); [|congruence]. apply existsb_exists. exists (nth d pre 0). split; [apply nth_In; auto|]. destruct (Nat.eqb_spec (nth d pre 0) 1); [congruence|reflexivity].
Qed.
Section Gather.
Context {A : Type} {RA : CRing A}.
Add Ring Aring_Ga : (@rth A RA).
Open Scope cr_scope.
Lemma gather0 {X} pre k locs (x : nd X) : sh x = pre ++ [k] -> (forall b, In b locs -> length b = length pre) ->
  sh (gather_lead 0 (pre ++ [k]) (length pre) locs x) = gsh pre (length locs) k /\
  forall p, inb p (gsh pre (length locs) k) -> at_ (gather_lead 0 (pre ++ [k]) (length pre) locs x) p = at_ x (gmap pre locs p).
Proof.
  intros Hs Hl. unfold gather_lead, gsh, gmap. rewrite adv_pre. cbn [firstn Nat.add]. rewrite Hs, skipn_app, skipn_all, Nat.sub_diag. cbn [skipn app].
  destruct (advb pre) eqn:Ea; cbn [sh at_ app].
  - split; [reflexivity|]. intros p Hp. inversion Hp as [|j L q ? Hj Hq]; subst. cbn [nth hd tl skipn]. rewrite src_bproj by (apply Hl, nth_In; auto). reflexivity.
  - split; [reflexivity|]. intros p Hp. rewrite ones_bproj by auto. reflexivity.
Qed.
Lemma gather1 {X} pre k k0 locs (x : nd X) : sh x = k0 :: pre ++ [k] -> (forall b, In b locs -> length b = length pre) ->
  sh (gather_lead 1 (pre ++ [k]) (length pre) locs x) = k0 :: gsh pre (length locs) k /\
  forall r p, inb p (gsh pre (length locs) k) -> at_ (gather_lead 1 (pre ++ [k]) (length pre) locs x) (r :: p) = at_ x (r :: gmap pre locs p).
Proof.
  intros Hs Hl. unfold gather_lead, gsh, gmap. rewrite adv_pre. rewrite Hs. cbn [firstn Nat.add skipn]. rewrite skipn_app, skipn_all, Nat.sub_diag. cbn [skipn app].
  destruct (advb pre) eqn:Ea; cbn [sh at_ app firstn].
  - split; [reflexivity|]. intros r p Hp. inversion Hp as [|j L q ? Hj Hq]; subst. cbn [nth hd tl skipn Nat.add firstn app]. rewrite src_bproj by (apply Hl, nth_In; auto). reflexivity.
  - split; [reflexivity|]. intros r p Hp. rewrite ones_bproj by auto. reflexivity.
Qed.
Lemma gmap_inb pre k locs brd p : bto pre brd -> length brd = length pre -> (forall b, In b locs -> inb b brd) -> inb (repeat 0%nat (length pre)) brd ->
  inb p (gsh pre (length locs) k) -> inb (gmap pre locs p) (pre ++ [k]).
Proof.
  intros Hbt Hlen Hlocs H0 Hp. unfold gsh, gmap in *. destruct (advb pre) eqn:Ea; cbn [app] in Hp.
  - inversion Hp as [|j L q ? Hj Hq]; subst. cbn [hd tl]. apply inb_app; auto. eapply bproj_inb; eauto. apply Hlocs, nth_In; auto.
  - apply inb_app; auto. eapply bproj_inb; eauto.
Qed.
(* a gathered triple, and its slices *)
Lemma gather_lapl_spec n pre k (a : lapl A) locs brd : awf n a -> sh (lx a) = pre ++ [k] -> bto pre brd -> length brd = length pre ->
  (forall b, In b locs -> inb b brd) -> inb (repeat 0%nat (length pre)) brd ->
  let a2 := gather_lapl (length pre) locs a in
  awf n a2 /\ sh (lx a2) = gsh pre (length locs) k /\ weak (ljac a2) = weak (ljac a) /\ rows (jdata (ljac a2)) = rows (jdata (ljac a)) /\
  (forall p, inb p (gsh pre (length locs) k) -> at_ (lx a2) p = at_ (lx a) (gmap pre locs p)) /\
  forall i p, inb p (gsh pre (length locs) k) -> jent (ljac a2) i p = jent (ljac a) i (gmap pre locs p).
Proof.
  intros [(k0 & Hk & Hm) Hlp] Hs Hbt Hlen Hlocs H0 a2.
  assert (Hll : forall b, In b locs -> length b = length pre) by (intros b Hb; apply Hlocs in Hb; apply inb_length in Hb; lia).
  rewrite Hs in Hk, Hlp. destruct (@gather0 _ pre k locs (lx a) Hs Hll) as [X1 X2]. destruct (@gather0 _ pre k locs (llap a) Hlp Hll) as [L1 _].
  destruct (@gather1 _ pre k k0 locs (jdata (ljac a)) Hk Hll) as [D1 D2]. unfold a2, gather_lapl. rewrite Hs. cbn [lx ljac llap].
  assert (Hr : rows (gather_lead 1 (pre ++ [k]) (length pre) locs (jdata (ljac a))) = rows (jdata (ljac a))) by (rewrite (rows_cons _ D1), (rows_cons _ Hk); reflexivity).
  destruct (jidx (ljac a)) as [m|] eqn:Em; cbn [option_map].
  - destruct Hm as [Hm1 Hm2]. rewrite Hs in Hm1, Hm2. destruct (@gather1 _ pre k k0 locs m Hm1 Hll) as [M1 M2].
    unfold awf; cbn [lx ljac llap]; split; [split; [|rewrite X1, L1; reflexivity]|].
    + exists k0. cbn [jdata jidx lx]. rewrite X1. split; [exact D1|]. split; [exact M1|]. intros r p Hr' Hp. rewrite M2, D2 by auto. apply Hm2; auto. eapply gmap_inb; eauto.
    + split; [exact X1|]. split; [unfold weak; cbn; rewrite Em; reflexivity|]. split; [exact Hr|]. split; [exact X2|]. intros i p Hp. unfold jent. cbn [jidx jdata]. rewrite Em, Hr.
      apply sumn_ext. intros r _. rewrite M2, D2 by auto. reflexivity.
  - unfold awf; cbn [lx ljac llap]; split; [split; [|rewrite X1, L1; reflexivity]|].
    + exists k0. cbn [jdata jidx lx]. rewrite X1. split; [exact D1|exact Hm].
    + split; [exact X1|]. split; [unfold weak; cbn; rewrite Em; reflexivity|]. split; [exact Hr|]. split; [exact X2|]. intros i p Hp. unfold jent. cbn [jidx jdata]. rewrite Em, Hr.
      destruct (i <? _)%nat; [|reflexivity]. apply D2; auto.
Qed.
Lemma gather_distinct n pre k (a : lapl A) locs brd : awf n a -> sh (lx a) = pre ++ [k] -> bto pre brd -> length brd = length pre ->
  (forall b, In b locs -> inb b brd) -> inb (repeat 0%nat (length pre)) brd -> jdistinct (ljac a) -> jdistinct (ljac (gather_lapl (length pre) locs a)).
Proof.
  intros [(k0 & Hk & Hm) Hlp] Hs Hbt Hlen Hlocs H0.
  assert (Hll : forall b, In b locs -> length b = length pre) by (intros b Hb; apply Hlocs in Hb; apply inb_length in Hb; lia).
  unfold jdistinct, gather_lapl. rewrite Hs. cbn [ljac jidx]. destruct (jidx (ljac a)) as [m|]; cbn [option_map]; [|auto].
  destruct Hm as [Hm1 Hm2]. rewrite Hs in Hm1, Hm2. destruct (@gather1 _ pre k k0 locs m Hm1 Hll) as [M1 M2].
  intros HD k' s' E r r' p Hr Hr' Hp. rewrite M1 in E. injection E as <- <-. rewrite !M2 by auto. intros P1 P2. apply (HD k0 (pre ++ [k]) Hm1 r r' (gmap pre locs p) Hr Hr'); auto. eapply gmap_inb; eauto.
Qed.
Lemma gather_slice n pre k (a a' : lapl A) locs brd j : awf n a -> sh (lx a) = pre ++ [k] -> bto pre brd -> length brd = length pre ->
  (forall b, In b locs -> inb b brd) -> inb (repeat 0%nat (length pre)) brd -> (j < length locs)%nat ->
  let a2 := gather_lapl (length pre) locs a in
  slice_of n [(ndim (lx a2) - 1)%nat] [j] a2 a' -> slice_of n [length pre] (nth j locs []) a a'.
Proof.
  intros Hw Hs Hbt Hlen Hlocs H0 Hj a2 HS.
  destruct (@gather_lapl_spec n pre k a locs brd Hw Hs Hbt Hlen Hlocs H0) as (W2 & S2 & Wk & Rw & X2 & J2). fold a2 in W2, S2, Wk, Rw, X2, J2.
  assert (Hpre2 : exists pre2, gsh pre (length locs) k = pre2 ++ [k] /\ (length pre2 <= 1)%nat /\ forall t, gmap pre locs (bproj pre2 [j] ++ [t]) = bproj pre (nth j locs []) ++ [t] /\ (t < k -> inb (bproj pre2 [j] ++ [t]) (gsh pre (length locs) k))%nat).
  { unfold gsh, gmap. destruct (advb pre) eqn:Ea.
    - exists [length locs]. split; [reflexivity|]. split; [cbn; lia|]. intros t.
      assert (E : bproj [length locs] [j] = [j]) by (apply bproj_same; constructor; auto; constructor). rewrite E. cbn [app hd tl]. split; [reflexivity|]. intros Ht. repeat constructor; auto.
    - exists []. split; [reflexivity|]. split; [cbn; lia|]. intros t. assert (E : bproj [] [j] = []) by reflexivity. rewrite E. cbn [app]. split.
      + rewrite ones_bproj by auto. rewrite bproj_ones'; auto. assert (Hin : In (nth j locs []) locs) by (apply nth_In; auto). apply Hlocs, inb_length in Hin. lia.
      + intros Ht. repeat constructor; auto. }
  destruct Hpre2 as (pre2 & Eg & Hl2 & Hg). rewrite Eg in S2, X2, J2, Hg.
  unfold ndim in HS. rewrite S2 in HS. rewrite app_length in HS. cbn [length] in HS. rewrite Nat.add_sub in HS.
  destruct HS as (E1 & E2 & E3 & E4 & E5 & E6). rewrite S2 in E5. rewrite slice_last in E5.
  assert (Hlb : (length pre <= length (nth j locs []))%nat).
  { assert (Hin : In (nth j locs []) locs) by (apply nth_In; auto). apply Hlocs, inb_length in Hin. lia. }
  unfold slice_of. rewrite Hs, slice_last. split; [|split; [exact E2|split; [congruence|split; [congruence|split; [|intros HD; apply E6; exact (@gather_distinct n pre k a locs brd Hw Hs Hbt Hlen Hlocs H0 HD)]]]]].
  - destruct E1 as [E1a E1b]. unfold bslice in E1a, E1b |- *. unfold ndim in *. rewrite S2 in E1a, E1b. rewrite Hs. cbn [sh at_] in *. rewrite slice_last in *.
    split; [exact E1a|]. cbn [sh at_]. intros i Hi. rewrite <- E1b by auto. inversion Hi as [|t ? q ? Ht Hq]; subst. inversion Hq; subst.
    change (at_ (lx a) (wv (pre ++ [k]) [length pre] (nth j locs []) [t]) = at_ (lx a2) (wv (pre2 ++ [k]) [length pre2] [j] [t])).
    rewrite !wv_last by (auto; cbn; lia). destruct (Hg t) as [G1 G2]. rewrite X2 by auto. rewrite G1. reflexivity.
  - intros i q Hq. rewrite E5 by auto. inversion Hq as [|t ? q' ? Ht Hq']; subst. inversion Hq'; subst. rewrite !wv_last by (auto; cbn; lia).
    destruct (Hg t) as [G1 G2]. rewrite J2 by auto. rewrite G1. reflexivity.
Qed.
End Gather.

Lemma keep_all leaves brd : brdcast_shape leaves = Some brd -> (forall l, In l leaves -> leaf_ok l) -> (forall k, k < length brd -> nth k brd 0 <> 1) ->
  keep_idx leaves brd = seq 0 (length brd).
Proof.
  intros HB Hok H1. destruct (keep_idx_filter leaves brd) as (P & EP). rewrite EP. apply filter_all. intros k Hk. apply in_seq in Hk.
  destruct (P k) eqn:E; [reflexivity|]. exfalso. apply (H1 k); [lia|]. apply (@brd_one leaves brd k HB Hok); [lia|]. rewrite EP. intros Hin. apply filter_In in Hin. destruct Hin. congruence.
Qed.
Lemma permute_id (l : list nat) : permute (seq 0 (length l)) l = l.
Proof. unfold permute. apply map_nth_seq. Qed.
Lemma permute_id' (l : list nat) m : length l = m -> permute (seq 0 m) l = l.
Proof. intros <-. apply permute_id. Qed.
Lemma ixpos_lt p l : In p l -> ixpos p l < length l /\ nth (ixpos p l) l [] = p.
Proof.
  induction l as [|q l IH]; intros H; [contradiction|]. cbn [ixpos length]. destruct (ixeqb q p) eqn:E.
  - apply ixeqb_eq in E. subst. split; [lia|reflexivity].
  - destruct H as [->|H]; [rewrite ixeqb_refl in E; discriminate|]. destruct (IH H). split; [lia|auto].
Qed.

Lemma bsr_len : forall s t r, bsr s t = Some r -> length r = Nat.max (length s) (length t).
Proof.
  induction s as [|a s IH]; intros t r H; [cbn in H; injection H as <-; reflexivity|]. destruct t as [|b t]; [cbn in H; injection H as <-; cbn; lia|].
  cbn [bsr] in H. destruct (bsr s t) as [u|] eqn:E; [|destruct (Nat.eqb a b), (Nat.eqb a 1), (Nat.eqb b 1); discriminate H].
  apply IH in E. destruct (Nat.eqb a b); [injection H as <-; cbn; lia|]. destruct (Nat.eqb a 1); [injection H as <-; cbn; lia|]. destruct (Nat.eqb b 1); [injection H as <-; cbn; lia|discriminate].
Qed.
Lemma bshapes_len l r m : bshapes l = Some r -> (forall s, In s l -> length s <= m) -> length r <= m.
Proof.
  unfold bshapes. intros H Hl. assert (G : forall l acc, length acc <= m -> (forall s, In s l -> length s <= m) ->
     fold_left (fun acc s => match acc with None => None | Some t => bshape2 t s end) l (Some acc) = Some r -> length r <= m).
  { clear. induction l as [|s l IH]; intros acc Ha Hl H; cbn [fold_left] in H; [injection H as <-; auto|].
    destruct (bshape2 acc s) as [u|] eqn:E.
    - apply (IH u); auto; [|intros; apply Hl; cbn; auto]. unfold bshape2 in E. destruct (bsr (rev acc) (rev s)) as [v|] eqn:Ev; [|discriminate]. cbn in E. injection E as <-. apply bsr_len in Ev. rewrite !rev_length in *.
      rewrite Ev. specialize (Hl s (or_introl eq_refl)). lia.
    - exfalso. clear -H. induction l; cbn in H; [discriminate|auto]. }
  apply (G l [] ltac:(cbn; lia) Hl). exact H.
Qed.
Lemma inb_one p L : inb p [L] -> exists j, p = [j] /\ j < L.
Proof. intros H. inversion H as [|j ? q ? Hj Hq]; subst. inversion Hq; subst. eauto. Qed.
Lemma bto_one x L : bto [x] [L] -> x = L \/ x = 1.
Proof. intros (s0 & s1 & Es & F). inversion F as [|? y ? l' Hxy F' E1 E2]; subst. inversion F'; subst. destruct s0 as [|? [|? ?]]; try discriminate Es. injection Es as <-. lia. Qed.
Lemma last_nth' (l : list nat) : last l 0 = nth (length l - 1) l 0.
Proof. destruct l as [|x l] using rev_ind; [reflexivity|]. rewrite last_last, app_length, app_nth2 by (cbn; lia). cbn [length]. replace (length l + 1 - 1 - length l) with 0 by lia. reflexivity. Qed.
Lemma last_app_ne (l m : list nat) : m <> [] -> last (l ++ m) 0 = last m 0.
Proof. intros H. destruct m as [|y m _] using rev_ind; [congruence|]. rewrite app_assoc, !last_last. reflexivity. Qed.
(* if the axes of size other than one come first, an axis of size one makes the last axis have size one *)
Lemma trail_ones (brd : shape) ki d0 : (exists P, ki = filter P (seq 0 (length brd))) -> (forall d, d < length brd -> (In d ki <-> nth d brd 0 <> 1)) ->
  firstn (length ki) brd = permute ki brd -> d0 < length brd -> nth d0 brd 0 = 1 -> length ki < length brd /\ last brd 0 = 1.
Proof.
  intros Hki Hin Hf Hd0 E0. pose proof (@ki_nodup brd ki Hki) as HN. pose proof (@ki_bound brd ki Hki) as HB.
  assert (Hle : length ki <= length brd) by (rewrite <- (seq_length (length brd) 0); apply NoDup_incl_length; auto; intros d Hd; apply in_seq; apply HB in Hd; lia).
  assert (Hall : forall d, d < length ki -> In d ki).
  { intros d Hd. apply Hin; [lia|]. assert (E : nth d (firstn (length ki) brd) 0 = nth d brd 0) by (rewrite <- (firstn_skipn (length ki) brd) at 2; rewrite app_nth1; [reflexivity|rewrite firstn_length; lia]).
    rewrite <- E, Hf. unfold permute. rewrite nth_map_in with (dx := 0) by auto. apply Hin; [apply HB|]; apply nth_In; auto. }
  assert (Hsub : incl ki (seq 0 (length ki))).
  { apply NoDup_length_incl; [apply seq_NoDup|rewrite seq_length; lia|]. intros d Hd. apply in_seq in Hd. apply Hall. lia. }
  assert (Hlt : length ki < length brd).
  { destruct (Nat.eq_dec (length ki) (length brd)) as [E|E]; [|lia]. exfalso. apply (proj1 (Hin d0 Hd0)); [|exact E0]. apply Hall. lia. }
  split; [exact Hlt|]. rewrite last_nth'. destruct (Nat.eq_dec (nth (length brd - 1) brd 0) 1) as [E|E]; [exact E|]. exfalso.
  apply (proj2 (Hin (length brd - 1) ltac:(lia))) in E. apply Hsub in E. apply in_seq in E. lia.
Qed.
Lemma bto_last y (s : shape) : bto [y] s -> last s 0 = 1 -> y = 1.
Proof.
  intros (s0 & s1 & E & F) Hl. inversion F as [|? z ? l' Hyz F' E1 E2]; subst. inversion F'; subst. rewrite last_last in Hl. lia.
Qed.
(* lia with only the arithmetic hypotheses *)
Ltac alia := repeat match goal with H : ?T |- _ =>
    lazymatch T with
    | @eq nat _ _ => fail | @eq Z _ _ => fail | (_ < _)%nat => fail | (_ <= _)%nat => fail | (_ < _)%Z => fail | (_ <= _)%Z => fail
    | (_ <= _ < _)%Z => fail | (_ <= _ < _)%nat => fail | (@eq nat _ _ -> False) => fail | (@eq Z _ _ -> False) => fail | ~ (@eq nat _ _) => fail | ~ (@eq Z _ _) => fail
    | _ => clear H end end; lia.
Section Dot.
Context {A : Type} {RA : CRing A}.
Add Ring Aring_Do : (@rth A RA).
Open Scope cr_scope.
(* no input reaches both factors: the second-order term vanishes *)
Lemma dot_zero n fb (args' : list (lapl A)) c : is_dot fb (xs_of args') -> inb c (sh (o_fwd fb (xs_of args'))) ->
  (forall i, (i < n)%nat -> exists a, (a < length args')%nat /\ forall q, inb q (sh (lx (nth a args' la0))) -> jent (ljac (nth a args' la0)) i q = 0) ->
  hspec n fb args' c = 0.
Proof.
  intros Hd Hc H. rewrite (@hspec_dot _ _ n fb args' c Hd Hc). rewrite sumn_zero; [ring|]. intros i Hi. destruct (H i Hi) as (a & Ha & HZ).
  pose proof Hd as (L2 & Hs & _). rewrite xs_length in L2. rewrite !xs_nth in Hs by lia. unfold jdot. apply sumL_zero. intros q Hq. apply allix_spec in Hq.
  assert (Ha2 : a = 0%nat \/ a = 1%nat) by lia. destruct Ha2 as [-> | ->]; rewrite HZ; try ring; auto. rewrite <- Hs. auto.
Qed.
Lemma mval_all (args : list (lapl A)) axs ba z m : (forall a, (a < m)%nat -> mval (nth a args la0) (nth a axs []) ba z) \/ exists a, (a < m)%nat /\ ~ mval (nth a args la0) (nth a axs []) ba z.
Proof.
  induction m as [|m IH]; [left; intros; lia|]. destruct IH as [IH|(a & Ha & IH)]; [|right; exists a; split; [lia|auto]].
  destruct (mval_dec (nth m args la0) (nth m axs []) ba z); [left; intros a Ha; destruct (Nat.eq_dec a m); [subst; auto|apply IH; lia]|right; exists m; split; [lia|auto]].
Qed.
(* an empty intersection at location b *)
Lemma empty_loc n (args : list (lapl A)) axs extra eaxs brda brd b args' : (forall a, In a args -> awf n a) -> length axs = length args ->
  brdcast_shape (mleaves args axs) = Some brda -> brdcast_shape (leaves_of args axs extra eaxs) = Some brd -> inb b brd -> sliced n args axs b args' ->
  (forall z, ~ out_set true args axs (bproj brda b) z) ->
  forall i, exists a, (a < length args')%nat /\ forall q, inb q (sh (lx (nth a args' la0))) -> jent (ljac (nth a args' la0)) i q = 0.
Proof.
  intros Hw La HA HB Hb [Ls Hs] HZ i.
  assert (Hred : forall a, (a < length args)%nat -> bto (reduced_shape (sh (lx (nth a args la0))) (nth a axs [])) brda).
  { intros a Ha. destruct (@mleaves_nth _ _ n args axs a La Hw Ha) as (k & Hk). pose proof (@brd_bto _ _ _ HA Hk) as Hq. cbn [fst snd] in Hq. rewrite reduced_jac in Hq. exact Hq. }
  assert (Hbt : bto brda brd).
  { pose proof HA as HA'. apply bshapes_spec in HA'. apply HA'. intros t Ht. apply in_map_iff in Ht. destruct Ht as (l & <- & Hl).
    destruct (@mleaves_inv _ _ n args axs _ La Hw Hl) as (a' & k & Ha' & ->). cbn [fst snd]. rewrite reduced_jac.
    apply (@brd_bto _ _ _ HB (@leaves_arg _ _ args axs extra eaxs a' La Ha')). }
  pose proof (bto_length Hbt) as Hlb. pose proof (inb_length Hb) as Hlb2.
  destruct (@mval_all args axs (bproj brda b) (Z.of_nat i) (length args)) as [H|(a & Ha & H)].
  - exfalso. apply (HZ (Z.of_nat i)). split; [lia|exact H].
  - exists a. rewrite Ls. split; [auto|]. intros q Hq. destruct (Hs a Ha) as (E & _ & _ & _ & EJ & _). destruct E as [E _]. rewrite <- E in Hq. cbn [bslice sh] in Hq. unfold ndim in Hq. rewrite EJ by exact Hq.
    rewrite <- (@wv_proj _ _ brda b q (Hred a Ha)) by lia. apply (@mval_jent _ _ n); auto. apply Hw, nth_In; auto.
Qed.
Lemma core_dot n f mg (args : list (lapl A)) axs extra eaxs b args' es : length axs = length args -> dot_core f mg axs (xs_of args) (length extra) -> sliced n args axs b args' -> mslices eaxs extra b es ->
  is_dot (merged f mg (length args) es) (xs_of args').
Proof.
  intros La [L2 HC] [Ls Hs] [Le _]. rewrite xs_length in L2. rewrite L2. apply HC; [rewrite xs_length; lia|auto|]. intros a Ha. rewrite xs_nth by lia. rewrite xs_nth by lia.
  destruct (Hs a) as (E & _); [lia|]. destruct E as [E _]. rewrite <- E. reflexivity.
Qed.
Lemma any_weak_sliced n (args : list (lapl A)) axs b args' : any_weak args = true -> sliced n args axs b args' -> exists a, (a < length args')%nat /\ weak (ljac (nth a args' la0)) = true.
Proof.
  intros H [Ls Hs]. unfold any_weak in H. apply existsb_exists in H. destruct H as (x & Hx & Ewk). apply (In_nth _ _ la0) in Hx. destruct Hx as (a & Ha & <-).
  exists a. split; [lia|]. destruct (Hs a Ha) as (_ & _ & -> & _). exact Ewk.
Qed.

(* a product of two arguments whose dot-product axis (if DOT_PRODUCT is claimed) is the last one, and either no leading axis has size one in
   every argument or the function of two vectors returns a scalar (with an axis of size one everywhere, removing empty locations raises) *)
Definition last_axes (f : op A) (mg : mergefn) (axs : list (list nat)) (args : list (lapl A)) (extra : list (nd A)) : Prop :=
  axs = map (fun a => [(ndim (lx a) - 1)%nat]) args /\ (any_weak args = true -> extra = [] /\
  exists m, (forall a, In a args -> ndim (lx a) = S m) /\
   ((forall d, (d < m)%nat -> exists a, In a args /\ nth d (sh (lx a)) 0%nat <> 1%nat) \/
    (ndim (o_fwd f (mg _ (xs_of args) [])) = m /\
     forall ys, length ys = length args -> (forall a, (a < length args)%nat -> sh (nth a ys nd0) = [last (sh (lx (nth a args la0))) 0%nat]) -> sh (o_fwd f (mg _ ys [])) = []))).

Theorem vmapped_dot n f c2r fl extra axs eaxs mg th args r : setup n f mg args axs extra eaxs ->
  has MULTIPLICATION fl = true -> dot_core f mg axs (xs_of args) (length extra) ->
  (has DOT_PRODUCT fl && forallb (fun a => Nat.eqb (length a) 1) axs = true -> last_axes f mg axs args extra) ->
  vmapped_jhj f c2r fl None extra axs eaxs mg th args = Some r ->
  jhj_ok n (merged f mg (length args) extra) args r.
Proof.
  intros HS HM HC HDL H. pose proof HS as [H1 H2 H3 H4 H5 H6 H7].
  pose proof (has_mult_one _ HM) as HL1. unfold vmapped_jhj in H.
  set (dp := has DOT_PRODUCT fl && forallb (fun a => Nat.eqb (length a) 1) axs) in *.
  pose proof H5 as [La _]. pose proof H6 as [Le _]. rewrite xs_length in La.
  destruct (@batched_brd _ _ f mg args axs extra eaxs H4 La Le H7) as (brd & Hbrd).
  destruct (@hspec_slice _ _ n f mg args axs extra eaxs brd H4 H5 H6 H7 Hbrd) as (C & HCs & Hhs).
  destruct (find_out_idx args axs fl th) as [[oi dense_out]|] eqn:EF; [|discriminate]. cbn [bind] in H.
  assert (HNone : forall args1, setup n f mg args1 axs extra eaxs -> length args1 = length args -> xs_of args1 = xs_of args ->
     (forall a i q, (a < length args)%nat -> inb q (sh (lx (nth a args la0))) -> jent (ljac (nth a args1 la0)) i q = jent (ljac (nth a args la0)) i q) ->
     (let* r := batched_eval f c2r fl None mg dense_out args1 (if dp then map (fun a => [(ndim (lx a) - 1)%nat]) args1 else axs) extra eaxs None in
      if Nat.eqb (prod (sh r)) (prod (sh (o_fwd f (mg _ (xs_of args) extra)))) then Some (reshape (sh (o_fwd f (mg _ (xs_of args) extra))) r) else None) = Some r ->
     jhj_ok n (merged f mg (length args) extra) args r).
  { intros args1 HS1 HL HX HJ HE.
    replace (if dp then map (fun a => [(ndim (lx a) - 1)%nat]) args1 else axs) with axs in HE.
    2:{ destruct dp eqn:Edp; [|reflexivity]. destruct (HDL eq_refl) as (Eax & _). rewrite Eax.
        transitivity (map (fun x : nd A => [(ndim x - 1)%nat]) (xs_of args)); [unfold xs_of; rewrite map_map; reflexivity|]. rewrite <- HX. unfold xs_of. rewrite map_map. reflexivity. }
    unfold jhj_ok. rewrite <- HX.
    assert (HK : jhj_ok n (merged f mg (length args1) extra) args1 r).
    { eapply (@eval_final _ _ n f c2r fl None mg dense_out args1 axs extra eaxs None r HS1); [|cbn [merged o_fwd]; rewrite HX; exact HE].
      intros brd' Hbrd' ki _ b args' es r0 Hb S1 S2 Ht. unfold hess_transform in Ht. rewrite HM in Ht.
      replace (if has SPARSE_JHJ fl then option_map (slice_idx (length ki) (permute ki b)) None else if dense_out then None else option_map (slice_idx (length ki) (permute ki b)) None) with (@None (nd Z)) in Ht by (destruct (has SPARSE_JHJ fl), dense_out; reflexivity).
      rewrite (proj1 S1) in Ht. destruct HS1 as [G1 G2 G3 G4 G5 G6 G7].
      assert (Hd : is_dot (merged f mg (length args1) es) (xs_of args')).
      { eapply (@core_dot n f mg args1 axs extra eaxs b); eauto; [|rewrite HX; auto]. rewrite HL; auto. }
      apply (@dot_loc_none _ _ n _ args' r0 G1 (@sliced_awf _ _ n args1 axs b args' S1) Hd Ht). }
    destruct HK as [K1 K2]. rewrite HL in K1, K2. split; [exact K1|]. intros p Hp. rewrite (K2 p Hp). apply hspec_dense; auto. }
  destruct (dense_out && negb (has SPARSE_JHJ fl)) eqn:EDo.
  { destruct (args_dense args) as [d|] eqn:Ed; [|discriminate]. cbn [bind] in H.
    destruct (@args_dense_spec _ _ n args d H1 H3 Ed) as (L & X & W & J). apply (HNone d); auto. eapply setup_dense; eauto. }
  cbn [bind] in H. destruct oi as [o|].
  2:{ apply (HNone args); auto. }
  destruct (@find_out_idx_spec _ _ n args axs fl th o dense_out H2 H3 H5 EF) as (Hany & brda & Lf & HA & Hso & HN & HLf). cbn zeta in HLf. rewrite HL1 in HLf.
  (* the value at a location whose index list is empty *)
  assert (Hempty : forall b c, inb b brd -> inb c C -> Lf (bproj brda b) = [] -> hspec n (merged f mg (length args) extra) args (b ++ c) = 0).
  { intros b c Hb Hc HLb. destruct (@slices_exist _ _ n args axs extra eaxs brd b H3 H5 H6 Hbrd Hb) as (args' & es & S1 & S2).
    destruct (Hhs b c args' es Hb Hc S1 S2) as [E1 ->].
    apply dot_zero; [eapply (@core_dot n f mg args axs extra eaxs b); eauto|rewrite E1; auto|]. intros i _.
    eapply (@empty_loc n args axs extra eaxs brda brd b args'); eauto. intros z Hz.
    assert (Hbt : bto brda brd).
    { pose proof HA as HA'. apply bshapes_spec in HA'. apply HA'. intros t Ht. apply in_map_iff in Ht. destruct Ht as (l & <- & Hl).
      destruct (@mleaves_inv _ _ n args axs _ La H3 Hl) as (a' & k & Ha' & ->). cbn [fst snd]. rewrite reduced_jac.
      apply (@brd_bto _ _ _ Hbrd (@leaves_arg _ _ args axs extra eaxs a' La Ha')). }
    destruct (HLf (bproj brda b) (@bproj_inb _ _ _ Hbt Hb)) as (_ & _ & _ & L4). apply L4 in Hz. rewrite HLb in Hz. contradiction. }
  assert (Hsplit : forall p, inb p (brd ++ C) -> p = firstn (length brd) p ++ skipn (length brd) p /\ inb (firstn (length brd) p) brd /\ inb (skipn (length brd) p) C).
  { intros p Hp. split; [symmetry; apply firstn_skipn|]. pose proof (inb_length Hp) as Lp. rewrite app_length in Lp. rewrite <- (firstn_skipn (length brd) p) in Hp. apply inb_app_inv in Hp; [exact Hp|]. rewrite firstn_length. alia. }
  assert (Hbt : bto brda brd).
  { pose proof HA as HA'. apply bshapes_spec in HA'. apply HA'. intros t Ht. apply in_map_iff in Ht. destruct Ht as (l & <- & Hl).
    destruct (@mleaves_inv _ _ n args axs _ La H3 Hl) as (a' & k & Ha' & ->). cbn [fst snd]. rewrite reduced_jac.
    apply (@brd_bto _ _ _ Hbrd (@leaves_arg _ _ args axs extra eaxs a' La Ha')). }
  destruct (Nat.eqb_spec (rows o) 0) as [E0|E0].
  { injection H as <-. split; [apply bto_nil|]. intros p Hp. cbn [nd0 sh at_]. rewrite HCs in Hp. destruct (Hsplit p Hp) as (Ep & Hb & Hc). rewrite Ep. symmetry. apply Hempty; auto.
    destruct (HLf (bproj brda (firstn (length brd) p)) (@bproj_inb _ _ _ Hbt Hb)) as (_ & L2 & _ & _). destruct (Lf (bproj brda (firstn (length brd) p))); [reflexivity|cbn in L2; alia]. }
  (* one location *)
  assert (Hloc : forall b args' es r0 o', inb b brd -> sliced n args axs b args' -> mslices eaxs extra b es ->
     loc_facts n true args args' o' (rows o) -> dot_jhj (merged f mg (length args') es) args' (Some o') = Some r0 ->
     sh r0 = sh (o_fwd (merged f mg (length args) es) (xs_of args')) /\ forall c, inb c (sh r0) -> at_ r0 c = hspec n (merged f mg (length args) es) args' c).
  { intros b args' es r0 o' Hb S1 S2 [F1 F2 F3 F4 F5] Ht. rewrite (proj1 S1) in Ht.
    apply (@dot_loc_some _ _ n _ args' o' (rows o) r0 (@sliced_awf _ _ n args axs b args' S1) F1); auto.
    - eapply (@core_dot n f mg args axs extra eaxs b); eauto.
    - eapply any_weak_sliced; eauto.
    - intros a Ha. destruct (weak (ljac (nth a args' la0))) eqn:Ewk; [left; reflexivity|right]. intros k Hk. apply F4; auto. }
  assert (Hsp : (if has SPARSE_JHJ fl then false else dense_out) = false) by (destruct (has SPARSE_JHJ fl), dense_out; cbn in EDo; congruence).
  assert (Hht : forall args' es o' r0, hess_transform f c2r fl None mg dense_out args' es (Some o') = Some r0 -> dot_jhj (merged f mg (length args') es) args' (Some o') = Some r0).
  { intros args' es o' r0 Ht. unfold hess_transform in Ht. rewrite HM in Ht. destruct (has SPARSE_JHJ fl); [exact Ht|]. rewrite Hsp in Ht. exact Ht. }
  assert (Hplain : (let* r := batched_eval f c2r fl None mg dense_out args axs extra eaxs (Some o) in
      if Nat.eqb (prod (sh r)) (prod (sh (o_fwd f (mg _ (xs_of args) extra)))) then Some (reshape (sh (o_fwd f (mg _ (xs_of args) extra))) r) else None) = Some r -> jhj_ok n (merged f mg (length args) extra) args r).
  { intros HE. eapply (@eval_final _ _ n f c2r fl None mg dense_out args axs extra eaxs (Some o) r HS); [|exact HE].
    intros brd' Hbrd' ki HG b args' es r0 Hb S1 S2 Ht. specialize (HG o eq_refl). rewrite Hbrd in Hbrd'. injection Hbrd' as <-.
    destruct (@loc_facts_ok _ _ n args axs extra eaxs fl th o dense_out brd b args' H2 H3 H5 H6 EF Hbrd HG Hb S1) as [F _]. fold ki in F. rewrite HL1 in F.
    cbn [option_map] in Ht. apply Hht in Ht. eapply Hloc; eauto. }
  destruct dp eqn:Edp; [|apply Hplain; exact H].
  destruct (HDL eq_refl) as (Eax & HLA). destruct (HLA Hany) as (-> & m & Hm & Hbig).
  destruct (remove_zero o dense_out) as [locs|] eqn:ERZ.
  2:{ apply Hplain. rewrite <- Eax in H. exact H. }
  (* gathered evaluation *)
  unfold remove_zero in ERZ. destruct dense_out eqn:Edo; [discriminate|]. destruct (_ <? _)%nat; [discriminate|]. injection ERZ as Elocs.
  destruct (existsb _ _); [discriminate|].
  assert (Hshp : forall a, (a < length args)%nat -> exists pre k, sh (lx (nth a args la0)) = pre ++ [k] /\ length pre = m /\ nth a axs [] = [length pre]).
  { intros a Ha. assert (Hin : In (nth a args la0) args) by (apply nth_In; auto). specialize (Hm _ Hin). unfold ndim in Hm.
    destruct (@exists_last _ (sh (lx (nth a args la0)))) as (pre & k & E); [intros E; rewrite E in Hm; discriminate|]. exists pre, k. split; [exact E|].
    rewrite E, app_length in Hm. cbn in Hm. split; [alia|]. rewrite Eax, nth_map_in with (dx := la0) by auto. unfold ndim. rewrite E, app_length. cbn [length]. f_equal. alia. }
  assert (Hprebt : forall a pre k, (a < length args)%nat -> sh (lx (nth a args la0)) = pre ++ [k] -> nth a axs [] = [length pre] -> bto pre brd).
  { intros a pre k Ha E1 E2. pose proof (@brd_bto _ _ _ Hbrd (@leaves_arg _ _ args axs [] eaxs a La Ha)) as Hq. cbn [fst snd] in Hq. rewrite E1, E2, reduced_last in Hq. exact Hq. }
  assert (Hbm : length brd = m).
  { assert (Ha0 : (0 < length args)%nat) by (destruct args; [congruence|cbn; alia]). destruct (Hshp 0%nat Ha0) as (pre & k & E1 & E2 & E3). pose proof (bto_length (@Hprebt 0%nat pre k Ha0 E1 E3)) as Hle.
    assert (Hge : (length brd <= m)%nat); [|alia].
    apply (@bshapes_len _ brd m Hbrd). intros t Ht. apply in_map_iff in Ht. destruct Ht as (l & <- & Hl). unfold leaves_of in Hl. cbn [map combine] in Hl. rewrite app_nil_r in Hl.
    apply (@in_combine_nth' _ _ _ _ l [] []) in Hl. destruct Hl as (a & K1 & K2 & ->). rewrite map_length in K1. cbn [fst snd]. rewrite nth_map_in with (dx := la0) by auto.
    destruct (Hshp a K1) as (pre' & k' & -> & E2' & ->). rewrite reduced_last. alia. }
  assert (Hnd : forall a pre k, (a < length args)%nat -> sh (lx (nth a args la0)) = pre ++ [k] -> length pre = m -> forall d, (d < m)%nat -> nth d (sh (lx (nth a args la0))) 0%nat = nth d pre 0%nat).
  { intros a pre k Ha -> <- d Hd. apply app_nth1; auto. }
  assert (Ebrda : brda = brd).
  { unfold brdcast_shape in HA, Hbrd. assert (E : map (fun l => reduced_shape (fst l) (snd l)) (mleaves args axs) = map (fun l => reduced_shape (fst l) (snd l)) (leaves_of args axs [] eaxs)); [|rewrite E in HA; congruence].
    unfold leaves_of. cbn [map combine]. rewrite app_nil_r. unfold mleaves. rewrite !map_map.
    apply nth_ext with (d := []) (d' := []); [rewrite !map_length, !combine_length, !map_length; reflexivity|].
    intros a Ha. rewrite map_length, combine_length, !map_length in Ha. assert (Ha' : (a < length args)%nat) by alia.
    rewrite (@nth_map_in _ _ (fun l => reduced_shape (fst l) (snd l)) _ _ (([] : shape), (jac_axes []))) by (rewrite combine_length, !map_length; alia).
    rewrite (@nth_map_in _ _ (fun l => reduced_shape (fst l) (snd l)) _ _ (([] : shape), ([] : list nat))) by (rewrite combine_length, !map_length; alia).
    rewrite !combine_nth by (rewrite !map_length; alia). cbn [fst snd]. rewrite !nth_map_in with (dx := la0) by auto. rewrite map_nth.
    destruct (H3 (nth a args la0)) as [W _]; [apply nth_In; auto|]. rewrite (mask_sh W). destruct W as (k & -> & _). apply reduced_jac. }
  subst brda.
  assert (Hn1 : forall d, (d < length brd)%nat -> nth d brd 0%nat <> 1%nat).
  { destruct Hbig as [Hbig|[Hnd0 Hsc]].
   { intros d Hd. rewrite Hbm in Hd. destruct (Hbig d Hd) as (x & Hx & Hx1). apply (In_nth _ _ la0) in Hx. destruct Hx as (a & Ha & <-).
    destruct (Hshp a Ha) as (pre & k & E1 & E2 & E3). rewrite (Hnd a pre k Ha E1 E2 d Hd) in Hx1. pose proof (@Hprebt a pre k Ha E1 E3) as (s0 & s1 & Es & F).
    assert (s0 = []) as ->. { pose proof (F2_length F). rewrite Es, app_length in Hbm. destruct s0; [reflexivity|cbn in Hbm; alia]. }
    cbn in Es. rewrite Es. clear -F Hx1 Hd E2. assert (Hd2 : (d < length pre)%nat) by alia. clear Hd E2. revert d Hx1 Hd2. induction F as [|x y l l' Hxy F IH]; intros d; cbn [length nth]; [alia|].
    destruct d; [lia|]. intros; apply IH; auto; alia. }
   (* an axis of size one in every argument: the masked update raises *)
   intros d0 Hd0 Ed0. exfalso.
   assert (HC0 : C = []) by (unfold ndim in Hnd0; change (sh (o_fwd f (mg _ (xs_of args) []))) with (sh (o_fwd (merged f mg (length args) []) (xs_of args))) in Hnd0; rewrite HCs, app_length in Hnd0; destruct C; [reflexivity|cbn [length] in Hnd0; alia]).
   pose proof (@mleaves_ok _ _ n args axs H5 H3) as HmO. set (ki := keep_idx (mleaves args axs) brd) in *.
   pose proof (keep_idx_filter (mleaves args axs) brd) as HKF. fold ki in HKF.
   assert (HKI : forall d, (d < length brd)%nat -> (In d ki <-> nth d brd 0%nat <> 1%nat)).
   { intros d Hd. split; [intros Hin; apply (@kept_size _ brd d HA HmO Hin)|]. intros Hne. destruct (in_dec Nat.eq_dec d ki) as [Hin|Hin]; [exact Hin|]. exfalso. apply Hne. apply (@brd_one _ brd d HA HmO Hd Hin). }
   assert (Hkl : (ndim o - 1)%nat = length ki) by (unfold ndim; rewrite Hso; cbn [length]; rewrite permute_length; alia).
   match type of H with (let* r := ?X in _) = _ => destruct X as [rr|] eqn:EB; [|discriminate] end. cbn [bind] in H.
   match type of H with (let* r := ?X in _) = _ => destruct X as [r'|] eqn:EU; [|discriminate] end. clear H.
   unfold unmask in EU. assert (Hso2 : sh (o_fwd f (mg _ (xs_of args) [])) = brd) by (rewrite HC0, app_nil_r in HCs; exact HCs). rewrite Hso2, Hso in EU. cbn [tl] in EU. rewrite permute_length in EU.
   destruct (sheq (firstn (length ki) brd) (permute ki brd)) eqn:ES; [|discriminate EU]. cbn [negb] in EU. apply sheq_eq in ES.
   destruct (@trail_ones brd ki d0 HKF HKI ES Hd0 Ed0) as [T1 T2].
   destruct (bshape2 (sh rr) (length locs :: skipn (length ki) brd)) as [sb|] eqn:EB2; [|discriminate EU]. destruct (sheq sb _) eqn:ES2; [|discriminate EU]. apply sheq_eq in ES2. subst sb. clear EU.
   destruct (bshape2_ub _ _ EB2) as [UB _]. rewrite Hkl in EB.
   set (args2 := map (gather_lapl (length ki) locs) args) in *. set (o2 := Nd [rows o; length locs] _) in *. set (axs2 := map (fun a => [(ndim (lx a) - 1)%nat]) args2) in *.
   assert (L2 : length args2 = length args) by apply map_length.
   assert (HG : forall a, (a < length args)%nat -> exists t, sh (lx (nth a args2 la0)) = t ++ [last (sh (lx (nth a args la0))) 0%nat]).
   { intros a Ha. unfold args2. rewrite nth_map_in with (dx := la0) by auto. destruct (Hshp a Ha) as (pre & k & E1 & E2 & E3). cbn [gather_lapl lx]. unfold gather_lead. cbn [firstn Nat.add app].
     rewrite E1, last_last. assert (EK : skipn (length ki) (pre ++ [k]) = skipn (length ki) pre ++ [k]).
     { rewrite skipn_app. replace (length ki - length pre)%nat with 0%nat by alia. reflexivity. }
     destruct (existsb _ _); cbn [sh]; rewrite EK; [exists (length locs :: skipn (length ki) pre); reflexivity|eexists; reflexivity]. }
   assert (Hax2 : axes_ok axs2 (xs_of args2)).
   { split; [rewrite xs_length; unfold axs2; apply map_length|]. rewrite xs_length. intros a Ha. unfold axs2. rewrite nth_map_in with (dx := la0) by auto. rewrite xs_nth by auto. split; [repeat constructor; auto|].
     intros d [<-|[]]. rewrite L2 in Ha. destruct (HG a Ha) as (t & E). unfold ndim. rewrite E, app_length. cbn. alia. }
   destruct (brdcast_shape (leaves_of args2 axs2 [] eaxs)) as [brd2|] eqn:Hbrd2; [|unfold batched_eval in EB; rewrite Hbrd2 in EB; discriminate].
   destruct (@batched_eval_scalar _ _ f c2r fl None mg false args2 axs2 [] eaxs (Some o2) brd2 rr Hax2 H6 Hbrd2) as [G1 G2]; [|exact EB|].
   { intros args' es o' r0 La' Le' HS' Ht. assert (es = []) as -> by (destruct es; [reflexivity|discriminate]). unfold hess_transform in Ht. rewrite HM in Ht. unfold dot_jhj in Ht.
     destruct args' as [|a1 [|a2 [|? ?]]]; try discriminate Ht. destruct (trace_jac_jacT _ _ _); [|discriminate Ht]. cbn [bind] in Ht. destruct (Nat.eqb _ 1); [|discriminate Ht]. injection Ht as <-. cbn [sh merged o_fwd].
     apply (Hsc (xs_of [a1; a2])); [rewrite xs_length; cbn [length] in La' |- *; alia|]. intros a0 Ha. rewrite xs_nth by (cbn [length] in La' |- *; alia). rewrite HS' by alia. destruct (HG a0 Ha) as (t & E). unfold axs2. rewrite nth_map_in with (dx := la0) by alia.
     unfold ndim. rewrite E, app_length. cbn [length]. rewrite Nat.add_sub. pose proof (slice_last t (last (sh (lx (nth a0 args la0))) 0%nat)) as E9. rewrite app_length in E9. cbn [length] in E9. exact E9. }
   specialize (G1 o2 eq_refl). unfold ndim in G1. cbn [o2 sh length] in G1. injection G1 as G1. rewrite G2 in UB.
   destruct (keep_idx (leaves_of args2 axs2 [] eaxs) brd2) as [|x [|? ?]] eqn:EK2; try discriminate G1. cbn [permute map] in UB.
   apply (@kept_size (leaves_of args2 axs2 [] eaxs) brd2 x Hbrd2 (@leaves_ok _ _ args2 axs2 [] eaxs Hax2 H6)); [rewrite EK2; left; reflexivity|].
   apply (bto_last UB). rewrite <- (firstn_skipn (length ki) brd) in T2. destruct (skipn (length ki) brd) as [|y l] eqn:EY; [apply (f_equal (@length nat)) in EY; rewrite skipn_length in EY; cbn in EY; alia|].
   rewrite last_app_ne in T2 by discriminate. exact T2. }
  pose proof (@keep_all _ brd HA (@mleaves_ok _ _ n args axs H5 H3) Hn1) as Eka. pose proof (@keep_all _ brd Hbrd (@leaves_ok _ _ args axs [] eaxs H5 H6) Hn1) as Ekb.
  rewrite Eka, permute_id in Hso. rewrite Eka in HLf. rewrite Hso in Elocs, H. cbn [tl] in Elocs, H.
  assert (Endo : (ndim o - 1)%nat = m) by (unfold ndim; rewrite Hso; cbn [length]; alia). rewrite Endo in H.
  set (args2 := map (gather_lapl m locs) args) in *. set (o2 := Nd [rows o; length locs] _) in *.
  assert (Hlocs : forall b, In b locs <-> inb b brd /\ zero_mask o b = true).
  { intros b. rewrite <- Elocs, filter_In, allix_spec. reflexivity. }
  assert (Hmask : forall b, inb b brd -> zero_mask o b = false -> Lf b = []).
  { intros b Hb Hz. destruct (HLf b Hb) as (_ & L2 & L3 & L4). destruct (Lf b) as [|z l] eqn:EL; [reflexivity|]. exfalso. cbn in L2.
    assert (Hz' : zero_mask o b = true); [|congruence]. apply existsb_exists. exists 0%nat. split; [apply in_seq; alia|]. specialize (L3 0%nat ltac:(alia)). rewrite permute_id' in L3 by (apply inb_length; auto). rewrite L3. cbn [nth].
    assert (Hin : In z (z :: l)) by (cbn; auto). apply L4 in Hin. destruct Hin as [Hz0 _]. destruct (Z.eqb_spec z (-1)); [alia|reflexivity]. }
  match type of H with (let* r := ?X in _) = _ => destruct X as [rr|] eqn:EB; [|discriminate] end. cbn [bind] in H.
  match type of H with (let* r := ?X in _) = _ => destruct X as [r'|] eqn:EU; [|discriminate] end. cbn [bind] in H.
  destruct (Nat.eqb _ _); [|discriminate]. injection H as <-.
  assert (Hso2 : sh (o_fwd f (mg _ (xs_of args) [])) = brd ++ C) by exact HCs.
  unfold unmask in EU. rewrite Hso2 in EU. rewrite firstn_app, firstn_all, Nat.sub_diag, firstn_O, app_nil_r, skipn_app, skipn_all, Nat.sub_diag in EU. cbn [skipn app] in EU.
  destruct (negb (sheq brd brd)); [discriminate|]. destruct (bshape2 (sh rr) (length locs :: C)) as [sb|]; [|discriminate]. destruct (sheq sb (length locs :: C)); [|discriminate]. injection EU as <-.
  split; [rewrite <- HCs; apply bto_refl|]. rewrite HCs. intros p Hp. cbn [reshape sh]. rewrite Hso2, bproj_same by auto. rewrite reshape_at. cbn [at_ sh]. rewrite unravel_ravel by auto.
  destruct (Hsplit p Hp) as (Ep & Hb & Hc). set (b := firstn (length brd) p) in *. set (c := skipn (length brd) p) in *.
  destruct (existsb (ixeqb b) locs) eqn:Ein.
  2:{ rewrite Ep. symmetry. apply Hempty; auto. rewrite bproj_same by auto. apply Hmask; auto. destruct (zero_mask o b) eqn:Ez; [|reflexivity]. exfalso.
      assert (existsb (ixeqb b) locs = true); [|congruence]. apply existsb_exists. exists b. split; [apply Hlocs; auto|apply ixeqb_refl]. }
  assert (Hinl : In b locs). { apply existsb_exists in Ein. destruct Ein as (q & Hq & E). apply ixeqb_eq in E. subst q. exact Hq. }
  destruct (ixpos_lt b locs Hinl) as [Hj Hnj]. set (j := ixpos b locs) in *.
  assert (Hz0 : forall pre : list nat, length pre = m -> inb (repeat 0%nat (length pre)) brd).
  { intros pre ->. rewrite <- Hbm. clear -Hb. induction Hb; cbn; constructor; auto. alia. }
  assert (Hlin : forall b, In b locs -> inb b brd) by (intros b' Hb'; apply Hlocs; auto).
  (* the gathered arguments *)
  assert (L2 : length args2 = length args) by apply map_length.
  assert (HG2 : forall a, (a < length args)%nat -> exists pre k, sh (lx (nth a args la0)) = pre ++ [k] /\ length pre = m /\ nth a axs [] = [length pre] /\ bto pre brd /\
       nth a args2 la0 = gather_lapl (length pre) locs (nth a args la0) /\ awf n (nth a args2 la0) /\ sh (lx (nth a args2 la0)) = gsh pre (length locs) k).
  { intros a Ha. destruct (Hshp a Ha) as (pre & k & E1 & E2 & E3). exists pre, k. pose proof (@Hprebt a pre k Ha E1 E3) as Hbt'. repeat split; auto.
    - unfold args2. rewrite nth_map_in with (dx := la0) by auto. rewrite E2. reflexivity.
    - unfold args2. rewrite nth_map_in with (dx := la0) by auto. rewrite <- E2. apply (@gather_lapl_spec _ _ n pre k (nth a args la0) locs brd); auto; [apply H3, nth_In; auto|alia].
    - unfold args2. rewrite nth_map_in with (dx := la0) by auto. rewrite <- E2. apply (@gather_lapl_spec _ _ n pre k (nth a args la0) locs brd); auto; [apply H3, nth_In; auto|alia].
    - unfold args2. rewrite nth_map_in with (dx := la0) by auto. rewrite <- E2. apply (@gather_lapl_spec _ _ n pre k (nth a args la0) locs brd); auto; [apply H3, nth_In; auto|alia]. }
  set (axs2 := map (fun a => [(ndim (lx a) - 1)%nat]) args2) in *.
  assert (La2 : length axs2 = length args2) by apply map_length.
  assert (Hgl : forall pre k, exists t, gsh pre (length locs) k = t ++ [k] /\ (t = [] \/ t = [length locs])) by (intros pre k; unfold gsh; destruct (advb pre); eexists; split; eauto).
  assert (Hax2 : axes_ok axs2 (xs_of args2)).
  { split; [rewrite xs_length; auto|]. rewrite xs_length. intros a Ha. unfold axs2. rewrite nth_map_in with (dx := la0) by auto. rewrite xs_nth by auto. split; [repeat constructor; auto|].
    intros d [<-|[]]. rewrite L2 in Ha. destruct (HG2 a Ha) as (pre & k & _ & _ & _ & _ & _ & _ & E). unfold ndim. rewrite E. destruct (Hgl pre k) as (t & -> & _). rewrite app_length. cbn. alia. }
  assert (Hw2 : forall a, In a args2 -> awf n a).
  { intros x Hx. apply (In_nth _ _ la0) in Hx. destruct Hx as (a & Ha & <-). rewrite L2 in Ha. destruct (HG2 a Ha) as (pre & k & _ & _ & _ & _ & _ & W & _). exact W. }
  destruct (brdcast_shape (leaves_of args2 axs2 [] eaxs)) as [brd2|] eqn:Hbrd2; [|unfold batched_eval in EB; rewrite Hbrd2 in EB; discriminate].
  destruct (@batched_eval_raw _ _ n f c2r fl None mg false args2 axs2 [] eaxs (Some o2) brd2 rr Hw2 Hax2 H6 Hbrd2 EB) as (G1 & G2 & G3).
  specialize (G1 o2 eq_refl). unfold ndim in G1. cbn [o2 sh length] in G1. set (ki2 := keep_idx (leaves_of args2 axs2 [] eaxs) brd2) in *.
  assert (Hred2 : forall l, In l (leaves_of args2 axs2 [] eaxs) -> bto (reduced_shape (fst l) (snd l)) [length locs]).
  { intros l Hl. unfold leaves_of in Hl. cbn [map combine] in Hl. rewrite app_nil_r in Hl. apply (@in_combine_nth' _ _ _ _ l [] []) in Hl. destruct Hl as (a & K1 & K2 & ->). rewrite map_length in K1. cbn [fst snd].
    rewrite nth_map_in with (dx := la0) by auto. unfold axs2. rewrite nth_map_in with (dx := la0) by auto. rewrite L2 in K1. destruct (HG2 a K1) as (pre & k & _ & _ & _ & _ & _ & _ & E).
    unfold ndim. rewrite E. destruct (Hgl pre k) as (t & -> & Ht). rewrite app_length. cbn [length]. rewrite Nat.add_sub, reduced_last. destruct Ht as [-> | ->]; [apply bto_nil|apply bto_refl]. }
  assert (Ebrd2 : brd2 = [length locs] /\ ki2 = [0%nat]).
  { assert (Hb2 : bto brd2 [length locs]). { pose proof Hbrd2 as HB'. apply bshapes_spec in HB'. apply HB'. intros t Ht. apply in_map_iff in Ht. destruct Ht as (l & <- & Hl). auto. }
    pose proof (bto_length Hb2) as Hle2. cbn [length] in Hle2. destruct (keep_idx_filter (leaves_of args2 axs2 [] eaxs) brd2) as (P & EP). fold ki2 in EP.
    destruct brd2 as [|x [|y brd2']]; [rewrite EP in G1; discriminate G1| |cbn in Hle2; alia].
    cbn [length seq filter] in EP. destruct (P 0%nat); [|rewrite EP in G1; discriminate G1]. split; [|exact EP]. f_equal.
    assert (Hx1 : x <> 1%nat). { apply (@kept_size (leaves_of args2 axs2 [] eaxs) [x] 0%nat Hbrd2); [apply (@leaves_ok _ _ args2 axs2 [] eaxs Hax2 H6)|]. fold ki2. rewrite EP. cbn; auto. }
    destruct (bto_one Hb2); [auto|contradiction]. }
  destruct Ebrd2 as [-> Eki2]. rewrite Eki2 in G2, G3. cbn [length permute map nth] in G2, G3.
  assert (Hbj : inb [j] [length locs]) by (repeat constructor; auto).
  (* slices of the gathered arguments are slices of the arguments *)
  assert (Hcell : forall j' args' es r0, (j' < length locs)%nat -> sliced n args2 axs2 [j'] args' -> mslices eaxs [] [j'] es ->
     hess_transform f c2r fl None mg false args' es (option_map (slice_idx 1 [j']) (Some o2)) = Some r0 ->
     sh r0 = C /\ forall c', inb c' C -> at_ r0 c' = hspec n (merged f mg (length args) []) args (nth j' locs [] ++ c')).
  { intros j' args' es r0 Hj' S1 S2 Ht. assert (Hin' : In (nth j' locs []) locs) by (apply nth_In; auto). pose proof (Hlin _ Hin') as Hb'. set (b' := nth j' locs []) in *.
    assert (es = []) as -> by (destruct S2 as [S2 _]; destruct es; [auto|discriminate S2]).
    assert (S1' : sliced n args axs b' args').
    { destruct S1 as [Ls Hs]. split; [alia|]. intros a Ha. destruct (HG2 a Ha) as (pre & k & E1 & E2 & E3 & E4 & E5 & E6 & E7).
      rewrite E3. apply (@gather_slice _ _ n pre k (nth a args la0) (nth a args' la0) locs brd j'); auto; [apply H3, nth_In; auto|alia|].
      specialize (Hs a ltac:(alia)). unfold axs2 in Hs. rewrite nth_map_in with (dx := la0) in Hs by alia. rewrite E5 in Hs. exact Hs. }
    assert (S2' : mslices eaxs [] b' []) by (split; [reflexivity|split; [exact Le|intros a Ha; cbn in Ha; alia]]).
    assert (HG : ndim o = S (length (keep_idx (leaves_of args axs [] eaxs) brd))) by (rewrite Ekb, seq_length; unfold ndim; rewrite Hso; reflexivity).
    destruct (@loc_facts_ok _ _ n args axs [] eaxs fl th o false brd b' args' H2 H3 H5 H6 EF Hbrd HG Hb' S1') as [F _]. rewrite HL1 in F. rewrite Ekb, seq_length in F. rewrite permute_id' in F by (apply inb_length; auto).
    cbn [option_map] in Ht. apply Hht in Ht.
    destruct (@slice_idx_spec o (rows o) brd b' Hso Hb') as [O1 O2].
    assert (Hso2' : sh o2 = rows o :: [length locs]) by reflexivity.
    assert (Hbj' : inb [j'] [length locs]) by (repeat constructor; auto).
    destruct (@slice_idx_spec o2 (rows o) [length locs] [j'] Hso2' Hbj') as [P1 P2]. cbn [length] in P1, P2.
    assert (EV : forall r, (r < rows o)%nat -> at_ (slice_idx 1 [j'] o2) [r] = at_ (slice_idx (length brd) b' o) [r]).
    { intros r1 Hr1. rewrite O2, P2 by auto. reflexivity. }
    assert (F' : loc_facts n true args args' (slice_idx 1 [j'] o2) (rows o)).
    { assert (ES : forall k, (k < rows o)%nat -> sgo (slice_idx 1 [j'] o2) k = sgo (slice_idx (length brd) b' o) k) by (intros k Hk; unfold sgo; rewrite EV by auto; reflexivity).
      destruct F as [(F1a & F1b & F1c) F2 F3 F4 F5]. constructor; try (intros; discriminate).
      - split; [exact P1|]. split; [intros r1 Hr1; rewrite EV by auto; auto|]. intros r1 r2 Hr1 Hr2. rewrite !EV by auto. apply F1c; auto.
      - intros _ i Hi Hk. apply (F3 eq_refl i Hi). intros k Hk'. rewrite <- ES by auto. auto.
      - intros _ a k Ha Hk Hwk Hp'. rewrite EV in * by auto. apply F4; auto. }
    destruct (Hloc b' args' [] r0 _ Hb' S1' S2' F' Ht) as [R1 R2].
    assert (ER : sh r0 = C).
    { rewrite R1. destruct (@hspec_slice _ _ n f mg args axs [] eaxs brd H4 H5 H6 H7 Hbrd) as (C' & HC' & HH'). rewrite HCs in HC'. apply app_inv_head in HC'. subst C'.
      apply (Hhs b' c args' [] Hb' Hc S1' S2'). }
    split; [exact ER|]. intros c' Hc'. rewrite R2 by (rewrite ER; auto). symmetry. apply (Hhs b' c' args' [] Hb' Hc' S1' S2'). }
  assert (Hrr : sh rr = length locs :: C).
  { apply (G3 C [j] Hbj). intros b' args' es r0 Hb' (T1 & T2 & T3). destruct (inb_one Hb') as (j' & -> & Hj'). apply (Hcell j' args' es r0 Hj' T1 T2 T3). }
  destruct (G2 [j] Hbj) as (args' & es & r0 & (T1 & T2 & T3) & Hat). cbn [nth app] in Hat. destruct (Hcell j args' es r0 Hj T1 T2 T3) as [R1 R2].
  rewrite Hrr. rewrite bproj_same by (constructor; auto). rewrite Hat, R2 by auto. rewrite Hnj. rewrite <- Ep. reflexivity.
Qed.
End Dot.
