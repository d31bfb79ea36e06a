(* HessTop.v : the complete second-order term (get_jacobian_hessian_jacobian_trace): shortcuts, custom rules, general and product
   functions.  Proofs only. *)
From Verif Require Export HessDot.
Set Implicit Arguments.

Section Top.
Context {A : Type} {RA : CRing A}.
Add Ring Aring_Top : (@rth A RA).
Open Scope cr_scope.

(* ---------- truthful flags make the shortcuts exact ---------- *)
Lemma hspec_zero n f (args : list (lapl A)) p :
  (forall a q b r, (a < length args)%nat -> (b < length args)%nat -> inb q (sh (lx (nth a args la0))) -> inb r (sh (lx (nth b args la0))) ->
     o_h f (xs_of args) p a q b r = 0) -> hspec n f args p = 0.
Proof.
  intros H. unfold hspec, quad. apply sumn_zero. intros i _. apply sumn_zero. intros a Ha. rewrite xs_length in Ha. apply sumL_zero. intros q Hq. apply allix_spec in Hq.
  apply sumn_zero. intros b Hb. rewrite xs_length in Hb. apply sumL_zero. intros r Hr. apply allix_spec in Hr. rewrite xs_nth in Hq, Hr by auto. rewrite H by auto. ring.
Qed.
Lemma merged_pos f mg (args : list (lapl A)) extra a : merge_ok mg (length args) (length extra) -> (a < length args)%nat ->
  let full := mg _ (xs_of args) extra in let P := posof mg (length args) (length extra) a in
  (P < length full)%nat /\ sh (nth P full nd0) = sh (lx (nth a args la0)) /\ sh (o_fwd (merged f mg (length args) extra) (xs_of args)) = sh (o_fwd f full).
Proof.
  intros Hm Ha full P. destruct (@merge_posof mg (length args) (length extra) (nd A) nd0 (xs_of args) extra a Hm) as [P1 P2]; rewrite ?xs_length; auto.
  split; [|split; [|reflexivity]].
  - destruct Hm as (lay & Hp & H). unfold full. rewrite (H _ nd0); rewrite ?xs_length; auto. rewrite map_length. apply Permutation_length in Hp. rewrite seq_length in Hp. rewrite Hp. exact P1.
  - unfold full, P. rewrite P2, xs_nth by auto. reflexivity.
Qed.
Lemma zero_ok n fm (args : list (lapl A)) : (forall p, inb p (sh (o_fwd fm (xs_of args))) -> hspec n fm args p = 0) -> jhj_ok n fm args nd0.
Proof. intros H. split; [apply bto_nil|]. intros p Hp. rewrite H by auto. reflexivity. Qed.
Theorem shortcut_sound n f c2r fl custom extra axs eaxs mg th args : merge_ok mg (length args) (length extra) -> truthful f fl (mg _ (xs_of args) extra) ->
  has LINEAR fl || (has LINEAR_IN_ONE fl && Nat.eqb (length args) 1) || (has LINEAR_IN_FIRST fl && Nat.eqb (posof mg (length args) (length extra) 0) 0 && Nat.eqb (length args) 1) = true ->
  jhj_trace f c2r fl custom extra axs eaxs mg th args = Some nd0 /\
  forall p, inb p (sh (o_fwd (merged f mg (length args) extra) (xs_of args))) -> hspec n (merged f mg (length args) extra) args p = 0.
Proof.
  intros Hm (T1 & T2 & T3) H. split.
  { unfold jhj_trace. destruct (has LINEAR fl); auto. cbn [orb] in H. destruct (has LINEAR_IN_ONE fl && Nat.eqb (length args) 1); auto. cbn [orb] in H. rewrite H. reflexivity. }
  intros p Hp. apply hspec_zero. intros a q b r Ha Hb Hq Hr. cbn [merged o_h].
  destruct (@merged_pos f mg args extra a Hm Ha) as (P1 & P2 & P3). destruct (@merged_pos f mg args extra b Hm Hb) as (Q1 & Q2 & _). cbn zeta in *. rewrite P3 in Hp.
  destruct (has LINEAR fl) eqn:E1.
  { apply (T1 eq_refl); auto; rewrite ?P2, ?Q2; auto. }
  cbn [orb] in H. apply orb_true_iff in H. destruct H as [H|H].
  - apply andb_true_iff in H. destruct H as [H1 H2]. apply Nat.eqb_eq in H2. assert (a = b) by lia. subst b. apply (T3 H1); auto; rewrite ?P2; auto.
  - apply andb_true_iff in H. destruct H as [H H2]. apply andb_true_iff in H. destruct H as [H1 H3]. apply Nat.eqb_eq in H2, H3. assert (a = 0%nat) by lia. assert (b = 0%nat) by lia. subst a b.
    rewrite H3 in *. apply (T2 H1); auto; rewrite ?P2; auto.
Qed.

(* ---------- custom rules ---------- *)
(* the index array handed to a rule for one batch element: None, or distinct inputs that cover every dependency of the arguments *)
Definition idx_covers (n : nat) (args : list (lapl A)) (idx : option (nd Z)) : Prop :=
  match idx with
  | None => True
  | Some o => exists R, idx_ok n R o /\
     (forall i, (i < n)%nat -> (forall k, (k < R)%nat -> sgo o k <> Some i) -> forall a q, (a < length args)%nat -> inb q (sh (lx (nth a args la0))) -> jent (ljac (nth a args la0)) i q = 0) /\
     (forall a, (a < length args)%nat -> weak (ljac (nth a args la0)) = true \/ forall k q, (k < R)%nat -> inb q (sh (lx (nth a args la0))) -> (0 <= at_ o [k] < Z.of_nat (rows (jdata (ljac (nth a args la0)))))%Z)
  end.
(* a rule is exact on arguments satisfying D *)
Definition rule_exact (n : nat) (f : op A) (mg : mergefn) (cu : custom_rule A) (C' : shape) (D : list (lapl A) -> list (nd A) -> Prop) : Prop :=
  forall args es idx r, args <> [] -> (forall a, In a args -> awf n a) -> D args es -> idx_covers n args idx -> cu args es mg idx = Some r ->
  let fm := merged f mg (length args) es in let so := sh (o_fwd fm (xs_of args)) in
  sh r = C' /\ prod C' = prod so /\ forall c, inb c so -> at_ (reshape so r) c = hspec n fm args c.

Lemma eval_custom n f c2r fl cu mg (dense_out : bool) args axs extra eaxs idx r C' D : setup n f mg args axs extra eaxs ->
  rule_exact n f mg cu C' D ->
  (forall brd, brdcast_shape (leaves_of args axs extra eaxs) = Some brd -> let ki := keep_idx (leaves_of args axs extra eaxs) brd in
   (forall o, idx = Some o -> ndim o = S (length ki)) -> forall b args' es, inb b brd -> sliced n args axs b args' -> mslices eaxs extra b es ->
     D args' es /\ exists idx', (if has SPARSE_JHJ fl then option_map (slice_idx (length ki) (permute ki b)) idx else if dense_out then None else option_map (slice_idx (length ki) (permute ki b)) idx) = idx' /\ idx_covers n args' idx') ->
  let fm := merged f mg (length args) extra in let so := sh (o_fwd fm (xs_of args)) in
  (let* r := batched_eval f c2r fl (Some cu) mg dense_out args axs extra eaxs idx in if Nat.eqb (prod (sh r)) (prod so) then Some (reshape so r) else None) = Some r ->
  jhj_ok n fm args r.
Proof.
  intros [H1 H2 H3 H4 H5 H6 H7] HR Hloc fm so H. destruct (batched_eval f c2r fl (Some cu) mg dense_out args axs extra eaxs idx) as [r'|] eqn:E; [|discriminate]. cbn [bind] in H.
  destruct (Nat.eqb _ _); [|discriminate]. injection H as <-.
  pose proof H5 as [La _]. pose proof H6 as [Le _]. rewrite xs_length in La.
  destruct (@batched_brd _ _ f mg args axs extra eaxs H4 La Le H7) as (brd & Hbrd).
  destruct (@batched_eval_raw _ _ n f c2r fl (Some cu) mg dense_out args axs extra eaxs idx brd r' H3 H5 H6 Hbrd E) as (G & G1 & G2). cbn zeta in G1, G2.
  destruct (@hspec_slice _ _ n f mg args axs extra eaxs brd H4 H5 H6 H7 Hbrd) as (C & HC & Hhs). cbn zeta in HC, Hhs. fold fm in HC, Hhs. fold so in HC.
  set (ki := keep_idx (leaves_of args axs extra eaxs) brd) in *.
  assert (Hrule : forall b args' es r0, inb b brd -> sliced n args axs b args' -> mslices eaxs extra b es ->
     hess_transform f c2r fl (Some cu) mg dense_out args' es (option_map (slice_idx (length ki) (permute ki b)) idx) = Some r0 ->
     sh r0 = C' /\ prod C' = prod (sh (o_fwd (merged f mg (length args) es) (xs_of args'))) /\
     forall c, inb c (sh (o_fwd (merged f mg (length args) es) (xs_of args'))) -> at_ (reshape (sh (o_fwd (merged f mg (length args) es) (xs_of args'))) r0) c = hspec n (merged f mg (length args) es) args' c).
  { intros b args' es r0 Hb S1 S2 Ht. destruct (Hloc brd Hbrd G b args' es Hb S1 S2) as (HD & idx' & Ei & Hc). fold ki in Ei. unfold hess_transform in Ht. rewrite Ei in Ht.
    assert (Hne : args' <> []) by (apply (@sliced_ne _ _ n args axs b args' H2 S1)).
    assert (Hw' : forall a, In a args' -> awf n a) by (apply (@sliced_awf _ _ n args axs b args' S1)).
    specialize (HR args' es idx' r0 Hne Hw' HD Hc Ht). cbn zeta in HR. rewrite (proj1 S1) in HR. exact HR. }
  unfold jhj_ok. fold so. cbn [reshape sh]. split; [apply bto_refl|]. intros p Hp. rewrite bproj_same by auto. rewrite HC in Hp.
  assert (Hbc : exists b c, p = b ++ c /\ inb b brd /\ inb c C).
  { exists (firstn (length brd) p), (skipn (length brd) p). split; [symmetry; apply firstn_skipn|].
    pose proof (inb_length Hp) as Lp. rewrite app_length in Lp.
    rewrite <- (firstn_skipn (length brd) p) in Hp. apply inb_app_inv in Hp; auto. rewrite firstn_length. lia. }
  destruct Hbc as (b & c & -> & Hb & Hc).
  assert (Hsr : sh r' = permute ki brd ++ C').
  { apply (G2 C' b Hb). intros b0 args' es r0 Hb0 (S1 & S2 & Ht). apply (Hrule b0 args' es r0); auto. }
  destruct (G1 b Hb) as (args' & es & r0 & (S1 & S2 & Ht) & Hat).
  destruct (Hrule b args' es r0 Hb S1 S2 Ht) as (R1 & R2 & R3). destruct (Hhs b c args' es Hb Hc S1 S2) as (K1 & K2). rewrite K1 in R2, R3. specialize (R3 c Hc). rewrite K2, <- R3.
  pose proof (@leaves_ok _ _ args axs extra eaxs H5 H6) as Hok.
  assert (Hone : forall k, (k < length brd)%nat -> ~ In k ki -> nth k brd 0%nat = 1%nat) by (intros k Hk Hn; apply (@brd_one _ _ k Hbrd Hok Hk Hn)).
  assert (Hkb : inb (permute ki b) (permute ki brd)) by (apply permute_inb; auto; intros d Hd; apply keep_idx_In in Hd; auto).
  set (c' := unravel_ix C' (ravel_ix C c)).
  assert (Hc' : inb c' C') by (apply unravel_inb; rewrite R2; apply ravel_lt; auto).
  assert (Ec : ravel_ix C' c' = ravel_ix C c) by (apply ravel_unravel; rewrite R2; apply ravel_lt; auto).
  rewrite HC. rewrite (@reshape_ravel_eq _ (brd ++ C) r' (b ++ c) (permute ki b ++ c')).
  - rewrite Hat. symmetry. apply reshape_ravel_eq; rewrite R1; auto.
  - rewrite Hsr. apply inb_app; auto.
  - rewrite Hsr. rewrite !ravel_app by (apply inb_length; auto). rewrite Ec, R2. f_equal. f_equal. symmetry.
    destruct (@ravel_keep brd (fun i => existsb (fun l => is_some (nth i (vmap_sequence (fst l) brd (snd l)) None)) (leaves_of args axs extra eaxs)) b Hb) as [E1 _]; [exact Hone|]. exact E1.
Qed.

Theorem vmapped_custom n f c2r fl cu extra axs eaxs mg th args r C' D : setup n f mg args axs extra eaxs ->
  has LINEAR_IN_ONE fl = false -> (any_weak args = false \/ forall a, In a args -> weak (ljac a) = false -> tall n th fl a) ->
  rule_exact n f mg cu C' D ->
  (forall brd b args' es, brdcast_shape (leaves_of args axs extra eaxs) = Some brd -> inb b brd -> length args' = length args -> mslices axs (xs_of args) b (xs_of args') -> mslices eaxs extra b es -> D args' es) ->
  vmapped_jhj f c2r fl (Some cu) extra axs eaxs mg th args = Some r ->
  jhj_ok n (merged f mg (length args) extra) args r.
Proof.
  intros HS HL1 HU HR HD0 H. pose proof HS as [H1 H2 H3 H4 H5 H6 H7].
  assert (HM : has MULTIPLICATION fl = false) by (destruct (has MULTIPLICATION fl) eqn:E; auto; apply has_mult_one in E; congruence).
  pose proof (has_dot_mult _ HM) as HD. unfold vmapped_jhj in H. rewrite HD in H. cbn [andb] in H.
  pose proof H5 as [La _]. rewrite xs_length in La. pose proof H6 as [Le _].
  destruct (find_out_idx args axs fl th) as [[oi dense_out]|] eqn:EF; [|discriminate]. cbn [bind] in H.
  assert (HNone : forall args1, setup n f mg args1 axs extra eaxs -> length args1 = length args -> xs_of args1 = xs_of args ->
     (forall a i q, (a < length args)%nat -> inb q (sh (lx (nth a args la0))) -> jent (ljac (nth a args1 la0)) i q = jent (ljac (nth a args la0)) i q) ->
     (let* r := batched_eval f c2r fl (Some cu) mg dense_out args1 axs extra eaxs None in
      if Nat.eqb (prod (sh r)) (prod (sh (o_fwd f (mg _ (xs_of args) extra)))) then Some (reshape (sh (o_fwd f (mg _ (xs_of args) extra))) r) else None) = Some r ->
     jhj_ok n (merged f mg (length args) extra) args r).
  { intros args1 HS1 HL HX HJ HE. unfold jhj_ok. rewrite <- HX. 
    assert (HK : jhj_ok n (merged f mg (length args1) extra) args1 r).
    { eapply (@eval_custom n f c2r fl cu mg dense_out args1 axs extra eaxs None r C' D HS1 HR); [|cbn [merged o_fwd]; rewrite HX; exact HE].
      intros brd Hbrd ki _ b args' es Hb S1 S2. split.
      - apply (HD0 brd b); auto; [|rewrite (proj1 S1); auto|rewrite <- HX; eapply sliced_mslices; eauto; lia].
        unfold leaves_of in *. replace (map (fun a => sh (lx a)) args) with (map (@sh A) (xs_of args)) by (unfold xs_of; rewrite map_map; reflexivity).
        rewrite <- HX. unfold xs_of. rewrite map_map. exact Hbrd.
      - exists None. split; [|exact I]. destruct (has SPARSE_JHJ fl), dense_out; reflexivity. }
    destruct HK as [K1 K2]. rewrite HL in K1, K2. split; [exact K1|]. intros p Hp. rewrite (K2 p Hp). apply hspec_dense; auto. }
  destruct (dense_out && negb (has SPARSE_JHJ fl)) eqn:EDo.
  { destruct (args_dense args) as [d|] eqn:Ed; [|discriminate]. cbn [bind] in H.
    destruct (@args_dense_spec _ _ n args d H1 H3 Ed) as (L & X & W & J). apply (HNone d); auto. eapply setup_dense; eauto. }
  cbn [bind] in H. destruct oi as [o|].
  2:{ apply (HNone args); auto. }
  destruct (@find_out_idx_spec _ _ n args axs fl th o dense_out H2 H3 H5 EF) as (Hany & _).
  destruct HU as [HU|HU]; [congruence|].
  destruct (Nat.eqb_spec (rows o) 0) as [E0|E0].
  - assert (HG : vmapped_jhj f c2r fl None extra axs eaxs mg th args = Some r).
    { unfold vmapped_jhj. rewrite EF. cbn [bind]. rewrite EDo. cbn [bind]. rewrite E0. exact H. }
    eapply vmapped_general; eauto.
  - eapply (@eval_custom n f c2r fl cu mg dense_out args axs extra eaxs (Some o) r C' D HS HR); [|exact H].
    intros brd Hbrd ki HG b args' es Hb S1 S2. split.
    { apply (HD0 brd b); auto; [apply (proj1 S1)|eapply sliced_mslices; eauto]. }
    specialize (HG o eq_refl).
    pose proof (@loc_facts_ok _ _ n args axs extra eaxs fl th o dense_out brd b args' H2 H3 H5 H6 EF Hbrd HG Hb S1) as [[F1 F2 F3 F4 F5] F6]. fold ki in F1, F2, F3, F4, F5, F6.
    exists (Some (slice_idx (length ki) (permute ki b) o)). split.
    { destruct (has SPARSE_JHJ fl), dense_out; cbn in EDo; try congruence; reflexivity. }
    exists (rows o). split; [exact F1|]. split; [exact (F2 HL1)|].
    intros a Ha. destruct (weak (ljac (nth a args' la0))) eqn:Ewk; [left; reflexivity|right]. intros k q Hk Hq.
    destruct (@sliced_dense _ _ n (tall n th fl) args axs b args' S1 HU a Ha Ewk) as (a0 & [Hrn|[Hfl Hrn]] & Er); rewrite <- Er in Hrn; [rewrite Hrn; apply (F5 HL1 a k q); auto|].
    apply (F6 HL1) with (q := q); auto. rewrite Hfl in EDo. destruct dense_out; [discriminate EDo|reflexivity].
Qed.

(* ---------- the complete second-order term ---------- *)
Theorem jhj_trace_sound n f c2r fl extra axs eaxs mg th args r : setup n f mg args axs extra eaxs -> truthful f fl (mg _ (xs_of args) extra) ->
  (* functions that are linear in one argument at a time and not declared a product reach the second-order term with one argument only *)
  (has LINEAR fl = false -> has LINEAR_IN_ONE fl = true -> length args <> 1%nat ->
     has MULTIPLICATION fl = true /\ dot_core f mg axs (xs_of args) (length extra) /\
     (has DOT_PRODUCT fl && forallb (fun a => Nat.eqb (length a) 1) axs = true -> last_axes f mg axs args extra)) ->
  (has LINEAR_IN_ONE fl = false -> any_weak args = false \/ forall a, In a args -> weak (ljac a) = false -> tall n th fl a) ->
  jhj_trace f c2r fl None extra axs eaxs mg th args = Some r ->
  jhj_ok n (merged f mg (length args) extra) args r.
Proof.
  intros HS HT HM HU H.
  destruct (has LINEAR fl || (has LINEAR_IN_ONE fl && Nat.eqb (length args) 1) || (has LINEAR_IN_FIRST fl && Nat.eqb (posof mg (length args) (length extra) 0) 0 && Nat.eqb (length args) 1)) eqn:ES.
  - destruct (@shortcut_sound n f c2r fl None extra axs eaxs mg th args (su_mg HS) HT ES) as [E Z]. rewrite E in H. injection H as <-. apply zero_ok. exact Z.
  - unfold jhj_trace in H. apply orb_false_iff in ES. destruct ES as [ES ES3]. apply orb_false_iff in ES. destruct ES as [ES1 ES2]. rewrite ES1, ES2, ES3 in H.
    destruct (has LINEAR_IN_ONE fl) eqn:EL.
    + cbn [andb] in ES2. apply Nat.eqb_neq in ES2. destruct (HM ES1 eq_refl ES2) as (M1 & M2 & M3). eapply vmapped_dot; eauto.
    + eapply vmapped_general; eauto.
Qed.
End Top.
