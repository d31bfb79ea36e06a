(* SparseTotal.v : when a function returns on sparse Jacobians.  The soundness theorems say what a result is when there is one; Total.v shows that there is one
   when no Jacobian is sparse; here sparse Jacobians are allowed. *)
From Verif Require Export Total.
Set Implicit Arguments.

(* specification: an array with this shape has an element *)
Definition ne (s : shape) : Prop := exists p, inb p s.
Lemma ne_bto s t : bto s t -> ne t -> ne s.
Proof. intros H (p & Hp). exists (bproj s p). eapply bproj_inb; eauto. Qed.
Lemma ne_prod s : ne s -> prod s <> 0.
Proof. intros (p & Hp). pose proof (ravel_lt Hp). lia. Qed.
Lemma ne_permute s l : (forall d, In d l -> d < length s) -> ne s -> ne (permute l s).
Proof. intros H (p & Hp). exists (permute l p). apply permute_inb; auto. Qed.
Lemma flat_ne (m : nd Z) : ne (sh m) -> flat m <> [].
Proof. intros (p & Hp) E. assert (H : In (at_ m p) (flat m)) by (apply flat_In; eauto). rewrite E in H. destruct H. Qed.

Section T.
Context {A : Type} {RA : CRing A}.
Add Ring Aring_ST : (@rth A RA).
Open Scope cr_scope.
(* specification: every element stores a direction it depends on *)
Definition jfull (J : jac A) : Prop := match jidx J with None => True | Some m => forall p, inb p (tl (sh m)) -> exists r, (r < rows m)%nat /\ (0 <= at_ m (r :: p))%Z end.
(* an argument that a rule can work with *)
Definition good (n : nat) (a : lapl A) : Prop := awf n a /\ jfull (ljac a) /\ ne (sh (lx a)).
Lemma full_nonempty n s J : jwf n s J -> jfull J -> ne s -> nonempty J.
Proof.
  intros Hw HF (p & Hp). unfold nonempty, jfull in *. destruct (jidx J) as [m|] eqn:Em; [|exact I]. destruct (jwf_sparse Hw Em) as (_ & Sm & _). rewrite Sm in HF. destruct (HF p Hp) as (r & Hr & _).
  rewrite (rows_cons _ Sm) in Hr. exists (r :: p). rewrite Sm. constructor; auto.
Qed.
Lemma full_row1 n s J : jwf n s J -> jfull J -> ne s -> jrow1 J.
Proof.
  intros Hw HF (p & Hp) W. unfold weak, jfull in *. destruct (jidx J) as [m|] eqn:Em; [|discriminate]. destruct (jwf_sparse Hw Em) as (_ & Sm & _). rewrite Sm in HF. destruct (HF p Hp) as (r & Hr & _). rewrite (rows_cons _ Sm) in Hr. lia.
Qed.
Lemma dense_full J : weak J = false -> jfull J.
Proof. unfold weak, jfull. destruct (jidx J); [discriminate|auto]. Qed.
Lemma good_dense n a : (0 < n)%nat -> good n a -> exists D K, dense_array (ljac a) = Some D /\ sh D = K :: sh (lx a).
Proof. intros Hn ((W & _) & HF & HN). destruct (dense_array_spec W (full_nonempty W HF HN) Hn) as (D & K & E1 & E2 & _). eauto. Qed.
Lemma good_jacs n args : (0 < n)%nat -> (forall a, In a args -> good n a) -> exists dj, dense_jacobian args = Some dj.
Proof.
  intros Hn H. unfold dense_jacobian. apply sequence_total. intros o Ho. apply in_map_iff in Ho. destruct Ho as (a & <- & Ha). destruct (@good_dense n a Hn (H a Ha)) as (D & _ & E & _). eauto.
Qed.
Lemma good_args_dense n args : (0 < n)%nat -> (forall a, In a args -> good n a) -> exists d, args_dense args = Some d.
Proof.
  intros Hn H. unfold args_dense. apply sequence_total. intros o Ho. apply in_map_iff in Ho. destruct Ho as (a & <- & Ha). destruct (@good_dense n a Hn (H a Ha)) as (D & _ & E & _). unfold lapl_dense, as_dense. rewrite E. cbn [bind]. eauto.
Qed.
(* what a propagation step returns *)
Definition stepped (f : op A) (args : list (lapl A)) (o : option (result A)) : Prop :=
  exists y g l, o = Some (y, g, l) /\ y = o_fwd f (xs_of args) /\ sh l = sh y /\ jfull g.
Lemma dense_jvp_good n f args fl ax : (0 < n)%nat -> args <> [] -> (forall a, In a args -> good n a) -> stepped f args (dense_jvp f args fl ax).
Proof.
  intros Hn Hne HG. destruct (@good_jacs n args Hn HG) as (dj & EJ).
  assert (HJ : exists y g l, (if has JOIN_JVP fl then dense_joint_jvp f args else dense_split_jvp f args) = Some (y, g, l) /\ y = o_fwd f (xs_of args) /\ sh l = sh y).
  { unfold dense_joint_jvp, dense_split_jvp. rewrite EJ. destruct (has JOIN_JVP fl); cbn [bind]; do 3 eexists; split; [reflexivity| |reflexivity|]; split; reflexivity. }
  assert (HK : forall o : option (nd A * nd A * nd A), (exists y g l, o = Some (y, g, l) /\ y = o_fwd f (xs_of args) /\ sh l = sh y) -> stepped f args (let* (yg, l) := o in let (y, g) := yg : nd A * nd A in Some (y, Jac g None, l))).
  { intros o (y & g & l & -> & E1 & E2). cbn [bind]. exists y, (Jac g None), l. repeat split; auto. }
  unfold dense_jvp. destruct args as [|a [|b l]]; [congruence| |]; apply HK; [|exact HJ].
  destruct (axes_nil ax); [|exact HJ]. unfold dense_elementwise_jvp. destruct (@good_dense n a Hn (HG a (or_introl eq_refl))) as (D & K & ED & SD). destruct (HG a (or_introl eq_refl)) as ((_ & Hl) & _).
  destruct (sheq (sh (o_fwd f [lx a])) (sh (lx a))) eqn:Es; cbn [negb]; [|unfold dense_split_jvp; rewrite EJ; cbn [bind]; do 3 eexists; split; [reflexivity|split; reflexivity]].
  rewrite ED. cbn [bind]. destruct (@bin_row_mul _ _ (vjp1 f (lx a) (ones_like (o_fwd f [lx a]))) D K (sh (lx a)) eq_refl SD) as (g & Eg & _). rewrite Eg. cbn [bind].
  unfold bin. cbn [vjp1 sh]. rewrite Hl, bshape2_refl. cbn [bind]. do 3 eexists. split; [reflexivity|]. split; [reflexivity|]. apply sheq_eq in Es. cbn [sh xs_of map]. symmetry. exact Es.
Qed.
(* ---- elementwise functions ---- *)
Lemma diag_good n f args fl ax : (0 < n)%nat -> args <> [] -> (forall a, In a args -> good n a) -> elementwise f (xs_of args) -> bshapes (map (@sh A) (xs_of args)) <> None ->
  stepped f args (sparse_diag_jvp f args fl ax).
Proof.
  intros Hn Hne HG He HB. unfold sparse_diag_jvp. destruct (all_weak args) eqn:EW; cbn [negb]; [|apply (@dense_jvp_good n); auto].
  set (so := sh (o_fwd f (xs_of args))).
  assert (HW : forall a, In a args -> exists m, jidx (ljac a) = Some m /\ sh m = rows (jdata (ljac a)) :: sh (lx a) /\ sh (jdata (ljac a)) = rows (jdata (ljac a)) :: sh (lx a) /\
     bto (sh (lx a)) so /\ forall p, inb p (sh (lx a)) -> exists r, (r < rows (jdata (ljac a)))%nat /\ (0 <= at_ m (r :: p))%Z).
  { intros a Ha. unfold all_weak in EW. rewrite forallb_forall in EW. specialize (EW a Ha). unfold weak in EW. destruct (HG a Ha) as ((W & _) & HF & _). unfold jfull in HF. destruct (jidx (ljac a)) as [m|] eqn:Em; [|discriminate].
    destruct (jwf_sparse W Em) as (S1 & S2 & _). exists m. split; [reflexivity|]. split; [exact S2|]. split; [exact S1|]. split.
    - apply (In_nth _ _ la0) in Ha. destruct Ha as (k & Hk & <-). destruct (He k) as [Hb _]; [rewrite xs_length; exact Hk|]. rewrite xs_nth in Hb by exact Hk. exact Hb.
    - rewrite S2 in HF. cbn [tl] in HF. rewrite (rows_cons _ S2) in HF. exact HF. }
  set (K := list_sum (map (fun a => rows (jdata (ljac a))) args)).
  set (yt := vmap_jvp f (xs_of args) (K + 1) (map (fun ja => one_hot_tangent args (fst ja) (snd ja)) (combine (seq 0 (length args)) args))).
  assert (Sg : sh (butlast yt) = K :: so) by (unfold butlast, yt, vmap_jvp, stack, rows; cbn [sh hd tl]; f_equal; lia).
  assert (Sl : sh (lastrow yt) = so) by reflexivity.
  destruct args as [|a [|b l]]; [congruence| |].
  - (* one argument *)
    destruct (HW a (or_introl eq_refl)) as (m & Em & Sm & Sd & Hb & HF). destruct (HG a (or_introl eq_refl)) as ((_ & Hl) & _).
    assert (EK : K = rows (jdata (ljac a))) by (unfold K; cbn; lia).
    assert (HGL : exists g l, (if sheq so (sh (lx a)) then let* g := bin rmul (vjp1 f (lx a) (ones_like (o_fwd f (xs_of [a])))) (jdata (ljac a)) in let* l := bin rmul (vjp1 f (lx a) (ones_like (o_fwd f (xs_of [a])))) (llap a) in Some (g, l) else Some (butlast yt, lastrow yt)) = Some (g, l) /\ sh g = rows (jdata (ljac a)) :: so /\ sh l = so).
    { destruct (sheq _ _) eqn:Es.
      - apply sheq_eq in Es. destruct (@bin_row_mul _ _ (vjp1 f (lx a) (ones_like (o_fwd f (xs_of [a])))) (jdata (ljac a)) _ (sh (lx a)) eq_refl Sd) as (g & Eg & Sg2 & _). rewrite Eg. cbn [bind].
        unfold bin. cbn [vjp1 sh]. rewrite Hl, bshape2_refl. cbn [bind]. do 2 eexists. split; [reflexivity|]. rewrite Es. split; [exact Sg2|reflexivity].
      - do 2 eexists. split; [reflexivity|]. rewrite <- EK. split; assumption. }
    destruct HGL as (g & l & E1 & E2 & E3). cbv zeta. fold K. fold yt. fold so. rewrite E1. cbn [bind]. rewrite (mask_sparse _ Em).
    destruct (@bmj_intro _ m g _ _ _ Sm E2 Hb) as (m2 & E4). destruct (bmj_spec _ _ Sm E2 E4) as (_ & S4 & A4). rewrite E4. cbn [bind]. rewrite E2, S4. rewrite (proj2 (sheq_eq _ _) eq_refl).
    do 3 eexists. split; [reflexivity|]. split; [reflexivity|]. split; [exact E3|]. cbn [jfull jidx]. rewrite S4. cbn [tl]. intros p Hp. rewrite (rows_cons _ S4). destruct (HF (bproj (sh (lx a)) p)) as (r & Hr & Hz); [eapply bproj_inb; eauto|].
    exists r. split; [exact Hr|]. rewrite A4 by exact Hp. exact Hz.
  - (* several arguments *)
    set (args := a :: b :: l) in *. cbv zeta. fold K. fold yt. cbn [bind].
    assert (EM : map (fun a => mask (ljac a)) args = map (fun a => match jidx (ljac a) with Some m => m | None => Nd [] (fun _ => 0%Z) end) args).
    { apply map_ext_in. intros z Hz. destruct (HW z Hz) as (m & Em & _). rewrite (mask_sparse _ Em), Em. reflexivity. }
    destruct (bshapes (map (@sh A) (xs_of args))) as [post|] eqn:EP; [|congruence]. destruct (bshapes_spec _ EP) as [P1 P2].
    assert (ET : map (fun m : nd Z => tl (sh m)) (map (fun a => mask (ljac a)) args) = map (@sh A) (xs_of args)).
    { unfold xs_of. rewrite !map_map. apply map_ext_in. intros z Hz. destruct (HW z Hz) as (m & Em & Sm & _). rewrite (mask_sparse _ Em), Sm. reflexivity. }
    unfold bexcs. rewrite ET, EP. cbn [bind]. set (ms := map (bexc1 post) (map (fun a => mask (ljac a)) args)).
    assert (Rms : map (@rows Z) ms = map (fun a => rows (jdata (ljac a))) args).
    { unfold ms. rewrite !map_map. apply map_ext_in. intros z Hz. destruct (HW z Hz) as (m & Em & Sm & _). rewrite (mask_sparse _ Em). unfold rows at 1. rewrite bexc1_sh. cbn [hd]. apply (rows_cons _ Sm). }
    assert (Scat : sh (concat0 (-1)%Z ms) = K :: post).
    { unfold concat0. cbn [sh]. rewrite Rms. fold K. f_equal. unfold ms, args. cbn [map hd]. rewrite bexc1_sh. reflexivity. }
    destruct (unique_rows (concat0 (-1)%Z ms)) as [u inv] eqn:EU. destruct (@unique_rows_spec _ _ _ u inv Scat EU) as (U & Su & U1 & U2 & _). cbn [bind].
    set (g2 := segment_sum K (tl (sh (butlast yt))) (butlast yt) (fun r => Z.of_nat (inv r)) (rows u)).
    assert (Sg2 : sh g2 = U :: so) by (unfold g2, segment_sum; cbn [sh]; rewrite (rows_cons _ Su), Sg; reflexivity).
    assert (Hpb : bto post so). { apply P2. intros t Ht. unfold xs_of in Ht. rewrite map_map in Ht. apply in_map_iff in Ht. destruct Ht as (z & <- & Hz). destruct (HW z Hz) as (_ & _ & _ & _ & Hb & _). exact Hb. }
    destruct (@bmj_intro _ u g2 _ _ _ Su Sg2 Hpb) as (m2 & E4). destruct (bmj_spec _ _ Su Sg2 E4) as (_ & S4 & A4). fold g2. rewrite E4. cbn [bind]. rewrite Sg2, S4. rewrite (proj2 (sheq_eq _ _) eq_refl).
    do 3 eexists. split; [reflexivity|]. split; [reflexivity|]. split; [exact Sl|]. cbn [jfull jidx]. rewrite S4. cbn [tl]. intros p Hp. rewrite (rows_cons _ S4).
    assert (Hpp : inb (bproj post p) post) by (eapply bproj_inb; eauto).
    destruct (HW a (or_introl eq_refl)) as (m & Em & Sm & _ & Hb & HF).
    assert (Hba : bto (sh (lx a)) post) by (apply P1; left; reflexivity).
    destruct (HF (bproj (sh (lx a)) (bproj post p))) as (r & Hr & Hz); [eapply bproj_inb; eauto|].
    assert (HrK : (r < K)%nat) by (unfold K, args; cbn [map list_sum fold_right]; lia).
    exists (inv r). split; [apply U1; exact HrK|]. rewrite A4 by exact Hp. rewrite U2 by auto.
    replace (at_ (concat0 (-1)%Z ms) (r :: bproj post p)) with (at_ m (r :: bproj (sh (lx a)) (bproj post p))); [exact Hz|].
    unfold concat0. cbn [at_]. unfold ms, args. cbn [map cat_at hd tl]. rewrite (mask_sparse _ Em). 
    replace (rows (bexc1 post m)) with (rows (jdata (ljac a))) by (unfold rows at 2; rewrite bexc1_sh; cbn [hd]; rewrite (rows_cons _ Sm); reflexivity).
    destruct (Nat.ltb_spec r (rows (jdata (ljac a)))) as [_|]; [|lia]. symmetry. apply (bexc1_at post _ _ Sm Hr). rewrite (inb_length Hpp). apply (bto_length Hba).
Qed.

(* ---- summation ---- *)
Lemma sum_returns n a axes th : awf n a -> weak (ljac a) = true -> prod (permute (keep_pos (ndim (lx a)) axes) (sh (lx a))) <> 0%nat -> exists r, sparse_sum_jvp a axes th = Some r.
Proof.
  intros _ W Hp. unfold sparse_sum_jvp, weak in *. destruct (jidx (ljac a)) as [m|]; [|discriminate]. cbv zeta. cbn [np_sum sh]. destruct (Nat.eqb_spec (prod (permute (keep_pos (ndim (lx a)) axes) (sh (lx a)))) 0) as [E|_]; [congruence|].
  destruct (compact _) as [ic rep]. eauto.
Qed.
End T.

(* a Jacobian over the integers that counts the stored directions of a mask *)
Definition cntJ (m : nd Z) : jac Z := Jac (Nd (sh m) (fun i => if (0 <=? at_ m i)%Z then 1%Z else 0%Z)) (Some m).
(* the array that carries cntJ (proof device, no /repo code) *)
Definition cntA (s : shape) (m : nd Z) : lapl Z := Lapl (Nd s (fun _ => 0%Z)) (cntJ m) (Nd s (fun _ => 0%Z)).
Lemma cntA_wf {A} {RA : CRing A} n s (J : jac A) m : jwf n s J -> jidx J = Some m -> awf n (cntA s m).
Proof.
  intros W Em. destruct (jwf_sparse W Em) as (_ & Sm & HR). split; [|reflexivity]. exists (rows (jdata J)). cbn. split; [exact Sm|]. split; [exact Sm|]. intros r p Hr Hp. split; [apply HR; auto|].
  intros Hz. destruct (Z.leb_spec 0 (at_ m (r :: p))); [lia|reflexivity].
Qed.
Lemma sumn_Z_nonneg n (F : nat -> Z) : (forall r, r < n -> (0 <= F r)%Z) -> (0 <= sumn n F)%Z.
Proof. unfold sumn. intros H. assert (forall l, (forall r, In r l -> (0 <= F r)%Z) -> (0 <= sumL l F)%Z) as G. { induction l as [|x l IH]; intros HL; [apply Z.le_refl|]. cbn [sumL]. change (@radd Z CRing_Z) with Z.add. pose proof (HL x (or_introl eq_refl)). pose proof (IH (fun r Hr => HL r (or_intror Hr))). lia. } apply G. intros r Hr. apply in_seq in Hr. apply H. lia. Qed.
Lemma sumL_Z_pos {X} (l : list X) (F : X -> Z) x : (forall y, In y l -> (0 <= F y)%Z) -> In x l -> (0 < F x)%Z -> (0 < sumL l F)%Z.
Proof.
  induction l as [|y l IH]; intros H Hx Hp; [destruct Hx|]. cbn [sumL]. change (@radd Z CRing_Z) with Z.add. pose proof (H y (or_introl eq_refl)).
  assert (G : forall l' : list X, (forall y, In y l' -> (0 <= F y)%Z) -> (0 <= sumL l' F)%Z). { clear. induction l' as [|y l' IH]; intros H; [apply Z.le_refl|]. cbn [sumL]. change (@radd Z CRing_Z) with Z.add. pose proof (H y (or_introl eq_refl)). pose proof (IH (fun r Hr => H r (or_intror Hr))). lia. }
  destruct Hx as [-> | Hx]; [pose proof (G l (fun r Hr => H r (or_intror Hr))); lia|]. pose proof (IH (fun r Hr => H r (or_intror Hr)) Hx Hp). lia.
Qed.
Lemma cnt_nonneg m i p : (0 <= jent (cntJ m) i p)%Z.
Proof. rewrite (@jent_sparse _ _ (cntJ m) m) by reflexivity. apply sumn_Z_nonneg. intros r _. destruct (Z.eqb _ _); [|reflexivity]. cbn. destruct (0 <=? _)%Z; lia. Qed.
Lemma cnt_pos m r p : r < rows m -> (0 <= at_ m (r :: p))%Z -> (0 < jent (cntJ m) (Z.to_nat (at_ m (r :: p))) p)%Z.
Proof.
  intros Hr Hz. rewrite (@jent_sparse _ _ (cntJ m) m) by reflexivity. unfold sumn. apply (@sumL_Z_pos _ _ _ r).
  - intros y _. destruct (Z.eqb _ _); [|apply Z.le_refl]. cbn. destruct (0 <=? _)%Z; lia.
  - apply in_seq. change (rows (jdata (cntJ m))) with (rows m). lia.
  - rewrite Z2Nat.id by exact Hz. rewrite Z.eqb_refl. cbn. destruct (Z.leb_spec 0 (at_ m (r :: p))); [lia|lia].
Qed.
Lemma ent_stored (J : jac Z) m i p : jidx J = Some m -> jent J i p <> 0%Z -> exists r, r < rows (jdata J) /\ at_ m (r :: p) = Z.of_nat i.
Proof.
  intros Em H. destruct (existsb (fun r => Z.eqb (at_ m (r :: p)) (Z.of_nat i)) (seq 0 (rows (jdata J)))) eqn:E.
  - apply existsb_exists in E. destruct E as (r & Hr & E). apply in_seq in Hr. apply Z.eqb_eq in E. exists r. split; [lia|exact E].
  - exfalso. apply H. rewrite (jent_sparse _ _ _ Em). apply (@sumn_zero Z CRing_Z). intros r Hr. destruct (Z.eqb_spec (at_ m (r :: p)) (Z.of_nat i)) as [E2|]; [|reflexivity]. exfalso.
    assert (existsb (fun r => Z.eqb (at_ m (r :: p)) (Z.of_nat i)) (seq 0 (rows (jdata J))) = true); [|congruence]. apply existsb_exists. exists r. split; [apply in_seq; lia|]. apply Z.eqb_eq. exact E2.
Qed.
(* a Jacobian whose mask is the mask of a counting Jacobian with a positive entry everywhere *)
Lemma full_from {A} {RA : CRing A} n s (g : jac A) (g' : jac Z) : jwf n s g -> jwf n s g' -> jidx g' = jidx g -> (forall p, inb p s -> exists i, jent g' i p <> 0%Z) -> jfull g.
Proof.
  intros W W' E H. unfold jfull. destruct (jidx g) as [m|] eqn:Em; [|exact I]. destruct (jwf_sparse W' E) as (S1 & S2 & _). rewrite S2. cbn [tl]. intros p Hp. destruct (H p Hp) as (i & Hi). destruct (@ent_stored g' m i p E Hi) as (r & Hr & Er).
  exists r. rewrite (rows_cons _ S2). split; [exact Hr|]. rewrite Er. lia.
Qed.
Lemma sum_mask {A} {RA : CRing A} (a : lapl A) m axes th y g l y' g' l' : jidx (ljac a) = Some m -> sh (jdata (ljac a)) = sh m ->
  sparse_sum_jvp a axes th = Some (y, g, l) -> sparse_sum_jvp (cntA (sh (lx a)) m) axes th = Some (y', g', l') -> jidx g' = jidx g.
Proof.
  intros Em Sd H H'. unfold sparse_sum_jvp in *. cbn [cntA ljac cntJ jidx jdata lx] in H'. rewrite Em in H. cbv zeta in H, H'. cbn [np_sum sh] in H, H'. unfold ndim in *. cbn [sh] in H'. rewrite Sd in H.
  destruct (Nat.eqb _ 0); [discriminate|].
  destruct (compact _) as [ic rep]. cbv zeta in H, H'. assert (E1 : jidx g = jidx (snd (fst (y, g, l)))) by reflexivity. assert (E2 : jidx g' = jidx (snd (fst (y', g', l')))) by reflexivity. 
  injection H as _ <- _. injection H' as _ <- _. reflexivity.
Qed.
Section T2.
Context {A : Type} {RA : CRing A}.
Add Ring Aring_ST2 : (@rth A RA).
Open Scope cr_scope.
Lemma keep_ne s axes : (forall d, In d axes -> (d < length s)%nat) -> ne s -> ne (permute (keep_pos (length s) axes) s) /\ ne (permute axes s).
Proof. intros H HN. split; apply ne_permute; auto. intros d Hd. apply keep_pos_In in Hd. tauto. Qed.
Lemma sum_good n a axes th : (0 < n)%nat -> good n a -> NoDup axes -> (forall d, In d axes -> (d < ndim (lx a))%nat) -> weak (ljac a) = true ->
  exists y g l, sparse_sum_jvp a axes th = Some (y, g, l) /\ y = np_sum axes (lx a) /\ sh l = sh y /\ jfull g.
Proof.
  intros Hn (W & HF & HN) ND HA Hw. pose proof Hw as Hw2. unfold weak in Hw2. destruct (jidx (ljac a)) as [m|] eqn:Em; [|discriminate]. destruct (jwf_sparse (proj1 W) Em) as (Sd & Sm & _).
  destruct (@keep_ne (sh (lx a)) axes HA HN) as [K1 K2]. 
  destruct (@sum_returns _ _ n a axes th W Hw (ne_prod K1)) as ([[y g] l] & E). destruct (@sparse_sum_exact _ _ n a axes th y g l Hn W ND HA E) as (E1 & E2 & E3 & E4 & _).
  assert (W' : awf n (cntA (sh (lx a)) m)) by (exact (cntA_wf (proj1 W) Em)).
  destruct (@sum_returns _ _ n (cntA (sh (lx a)) m) axes th W' eq_refl (ne_prod K1)) as ([[y' g'] l'] & E'). destruct (@sparse_sum_exact _ _ n (cntA (sh (lx a)) m) axes th y' g' l' Hn W' ND HA E') as (_ & _ & E3' & _ & EJ & _).
  exists y, g, l. split; [exact E|]. split; [exact E1|]. split; [congruence|]. apply (@full_from _ _ n _ g g' E3 E3').
  - apply (@sum_mask _ _ a m axes th y g l y' g' l' Em); [congruence|exact E|exact E'].
  - intros p Hp. destruct K2 as (j & Hj). unfold jfull in HF. rewrite Em, Sm in HF. cbn [tl] in HF. cbn [cntA lx] in EJ. unfold ndim in *. cbn [sh] in *.
    assert (Hq : inb (weave (length (sh (lx a))) axes p j) (sh (lx a))) by (apply weave_inb; auto). destruct (HF _ Hq) as (r & Hr & Hz).
    exists (Z.to_nat (at_ m (r :: weave (length (sh (lx a))) axes p j))). rewrite EJ by exact Hp. intro E0.
    assert (0 < 0)%Z; [|lia]. rewrite <- E0 at 2. apply (@sumL_Z_pos _ _ _ j); [intros y0 _; apply cnt_nonneg|apply allix_spec; exact Hj|]. apply cnt_pos; auto.
Qed.

(* ---- reductions ---- *)
Lemma reduction_returns (J : jac A) m n s axes : jwf n s J -> jidx J = Some m -> NoDup axes -> (forall d, In d axes -> (d < length s)%nat) ->
  (exists r q, (r < rows m)%nat /\ inb q s /\ (0 <= at_ m (r :: q))%Z) -> exists gt om, get_jacobian_for_reduction J axes = Some (gt, om).
Proof.
  intros Hwf Em Hnd Hlt Hsome. set (keep := keep_pos (length s) axes). set (t := permute keep s). destruct (jwf_sparse Hwf Em) as (Hd & Hm & Hran).
  set (k := rows (jdata J)) in *. unfold get_jacobian_for_reduction. cbv zeta. rewrite (mask_sparse _ Em).
  set (m1 := bexc1 (tl (sh m)) m) in *.
  assert (sh m1 = k :: s) as Hm1 by (unfold m1; rewrite bexc1_sh, (rows_cons _ Hm), Hm; reflexivity).
  assert (forall r q, (r < k)%nat -> inb q s -> at_ m1 (r :: q) = at_ m (r :: q)) as Hm1a.
  { intros r q Hr Hq. unfold m1. rewrite Hm. cbn [tl]. rewrite (bexc1_at _ _ _ Hm Hr) by (rewrite (inb_length Hq); auto).
    rewrite bproj_same; auto. }
  unfold ndim. rewrite Hm1. cbn [tl length].
  set (jred := map S axes ++ [0%nat]) in *.
  assert (filter (fun d => negb (existsb (Nat.eqb d) jred)) (seq 0 (S (length s))) = map S keep) as Hkept.
  { assert (forall d, existsb (Nat.eqb (S d)) jred = existsb (Nat.eqb d) axes) as E.
    { intros d. unfold jred. rewrite existsb_app. cbn. rewrite orb_false_r. clear. induction axes; cbn; auto. rewrite IHaxes. reflexivity. }
    change (seq 0 (S (length s))) with (0%nat :: seq 1 (length s)). rewrite <- seq_shift. unfold keep, keep_pos. cbn [filter].
    assert (existsb (Nat.eqb 0) jred = true) as E0 by (apply existsb_eqb_In; unfold jred; apply in_or_app; cbn; auto).
    rewrite E0. cbn [negb]. generalize (seq 0 (length s)). intros ls. induction ls as [|d ls IH]; [reflexivity|]. cbn [map filter].
    rewrite E. destruct (existsb (Nat.eqb d) axes); cbn [negb map]; [exact IH|f_equal; exact IH]. }
  rewrite Hkept.
  assert (permute (map S keep) (k :: s) = t) as Hks.
  { unfold permute. rewrite map_map. reflexivity. }
  rewrite Hks. rewrite (rows_cons _ Hm1).
  set (rsize := prod (permute axes s)) in *. set (ksize := prod t) in *.
  set (ord := map S keep ++ jred) in *.
  assert (is_perm ord (S (length s))) as Hperm.
  { unfold ord, jred, is_perm. rewrite app_assoc, <- map_app. eapply Permutation_trans; [apply Permutation_app_comm|].
    cbn [app seq]. constructor. rewrite <- seq_shift. apply Permutation_map.
    eapply Permutation_trans; [apply Permutation_app_comm|]. apply axes_keep_perm; auto. }
  assert (forall x (l : list nat), permute ord (x :: l) = permute keep l ++ permute axes l ++ [x]) as Hpo.
  { intros x l0. unfold ord, jred. rewrite !permute_app. unfold permute. rewrite !map_map. reflexivity. }
  set (m3 := reshape [ksize; rsize; k] (transpose ord m1)) in *.
  set (per := fun b => filter (fun z => negb (Z.eqb z (-1))) (uniqZ (flat (row m3 b)))) in *.
  set (mu := maxl (map (fun b => length (per b)) (seq 0 ksize))) in *.
  set (omf := Nd [ksize; mu] (fun i => nth (nth 1 i 0%nat) (per (nth 0 i 0%nat)) (-1)%Z)) in *.
  set (oms := transpose (argsort ord) (reshape (t ++ repeat 1%nat (length (permute axes s)) ++ [mu]) omf)) in *.
  (* per b : the stored indices of the slice with kept coordinates c, ravel c = b *)
  assert (forall c z, inb c t -> In z (per (ravel_ix t c)) <->
     z <> (-1)%Z /\ exists r q, (r < k)%nat /\ inb q s /\ permute keep q = c /\ at_ m (r :: q) = z) as Hper.
  { intros c z Hc. unfold per. rewrite filter_In, uniqZ_In, flat_In. rewrite negb_true_iff.
    assert (forall j r, inb j (permute axes s) -> (r < k)%nat ->
       at_ m3 [ravel_ix t c; ravel_ix (permute axes s) j; r] = at_ m (r :: weave (length s) axes c j)) as G.
    { intros j r Hj Hr.
      assert (inb (weave (length s) axes c j) s) as Hw by (apply weave_inb; auto).
      rewrite <- Hm1a by auto.
      rewrite <- (@transpose_at _ ord m1 (r :: weave (length s) axes c j)).
      2:{ unfold ndim. rewrite Hm1. auto. }
      2:{ unfold ndim. rewrite Hm1. cbn. rewrite weave_length. auto. }
      rewrite Hpo. unfold keep at 1. rewrite weave_axes, weave_keep; auto.
      2:{ rewrite (inb_length Hc). unfold t. apply permute_length. }
      2:{ rewrite (inb_length Hj). apply permute_length. }
      unfold m3. apply reshape_ravel_eq.
      - rewrite transpose_sh, Hm1, Hpo. fold t. repeat apply inb_app; auto. repeat constructor; auto.
      - rewrite transpose_sh, Hm1, Hpo. fold t. rewrite ravel_app by (apply inb_length; auto).
        rewrite ravel_app by (apply inb_length; auto). rewrite !prod_app. cbn [prod ravel_ix]. fold rsize. lia. }
    split.
    - intros [(i & Hi & E) Hz]. split; [intros ->; discriminate|].
      unfold row in Hi, E. cbn [sh m3 reshape tl at_] in Hi, E.
      inversion Hi as [|x ? i1 ? Hx Hi1]; subst. inversion Hi1 as [|r ? i2 ? Hr Hi2]; subst. inversion Hi2; subst.
      pose proof (unravel_inb _ Hx) as Hj.
      exists r, (weave (length s) axes c (unravel_ix (permute axes s) x)). split; auto.
      split; [apply weave_inb; auto|]. split.
      + apply weave_keep. rewrite (inb_length Hc). apply permute_length.
      + symmetry. rewrite <- G by auto. rewrite ravel_unravel by auto. reflexivity.
    - intros (Hz & r & q & Hr & Hq & Hc' & E). split; [|lia].
      exists [ravel_ix (permute axes s) (permute axes q); r]. 
      assert (inb (permute axes q) (permute axes s)) as Hj by (apply permute_inb; auto).
      split.
      + cbn. repeat constructor; auto. apply ravel_lt; auto.
      + unfold row. cbn [at_]. rewrite G by auto. rewrite <- Hc'. unfold keep. rewrite weave_permute by (auto; apply inb_length; auto). auto. }
  assert (forall c, inb c t -> NoDup (per (ravel_ix t c)) /\ (length (per (ravel_ix t c)) <= mu)%nat) as Hperd.
  { intros c Hc. split.
    - apply NoDup_filter, uniqZ_NoDup.
    - apply maxl_ge. apply in_map_iff. exists (ravel_ix t c). split; auto. apply in_seq. pose proof (ravel_lt Hc). fold ksize in H. lia. }
  (* the shape with the reduced axes kept as size one *)
  set (t1 := map (fun d => if existsb (Nat.eqb d) axes then 1%nat else nth d s 0%nat) (seq 0 (length s))).
  assert (length t1 = length s) as Hlt1 by (unfold t1; rewrite map_length, seq_length; auto).
  assert (forall d, (d < length s)%nat -> nth d t1 0%nat = if existsb (Nat.eqb d) axes then 1%nat else nth d s 0%nat) as Ht1n.
  { intros d Hd'. unfold t1. rewrite nth_map_in with (dx := 0%nat) by (rewrite seq_length; auto). rewrite seq_nth by auto. reflexivity. }
  assert (permute keep t1 = t) as Hkt1.
  { apply map_ext_in. intros d Hd'. apply keep_pos_In in Hd'. rewrite Ht1n by tauto. rewrite (proj2 (existsb_eqb_nIn _ _)) by tauto. auto. }
  assert (permute axes t1 = repeat 1%nat (length axes)) as Hat1.
  { unfold permute. clear - Ht1n Hlt. assert (forall d, In d axes -> nth d t1 0%nat = 1%nat) as G.
    { intros d Hd. rewrite Ht1n by auto. rewrite (proj2 (existsb_eqb_In _ _)); auto. }
    clearbody t1. clear - G. induction axes as [|d l0 IH]; cbn; auto. rewrite G by (cbn; auto). f_equal. apply IH. intros; apply G; cbn; auto. }
  assert (bto t1 s) as Hbt.
  { exists [], s. split; auto. unfold t1. rewrite <- (map_nth_seq s 0%nat) at 2. generalize (seq 0 (length s)). intros ls.
    induction ls as [|d ls IH]; cbn [map]; constructor; auto. destruct (existsb _ axes); auto. }
  assert (sh oms = mu :: t1) as Homs.
  { unfold oms. rewrite transpose_sh. cbn [reshape sh]. rewrite permute_length.
    replace (t ++ repeat 1%nat (length axes) ++ [mu]) with (permute ord (mu :: t1)) by (rewrite Hpo, Hkt1, Hat1; reflexivity).
    apply permute_argsort with (n := S (length s)); auto. cbn. lia. }
  assert (0 < mu)%nat as Hmu.
  { destruct Hsome as (r & q & Hr & Hq & Hz). rewrite (rows_cons _ Hm) in Hr. assert (Hc : inb (permute keep q) t) by (apply permute_inb; auto; intros d Hd'; apply keep_pos_In in Hd'; tauto).
    assert (Hin : In (at_ m (r :: q)) (per (ravel_ix t (permute keep q)))) by (apply Hper; auto; split; [lia|]; exists r, q; auto).
    destruct (Hperd _ Hc) as [_ HL]. destruct (per (ravel_ix t (permute keep q))); [destruct Hin|cbn in HL; lia]. }
  change (exists gt om, (let* im := get_index_mask J oms in let* jj := materialize_for_idx J true im mu in Some (jj, reshape (mu :: t) oms)) = Some (gt, om)).
  destruct (@construct_sparse_spec _ _ J m oms n k s mu t1 Hwf Em Hd Homs Hbt Hmu) as (res & Eres & _).
  unfold construct_jac_for_idx in Eres. rewrite (rows_cons _ Homs) in Eres. destruct (Nat.eqb_spec mu 0); [lia|]. rewrite Em in Eres.
  destruct (get_index_mask J oms) as [im|]; [|discriminate]. cbn [bind] in Eres |- *. rewrite Eres. cbn [bind]. eauto.
Qed.
End T2.
Lemma reduction_mask {A} {RA : CRing A} (J : jac A) m axes gt om gt' om' : jidx J = Some m -> 
  get_jacobian_for_reduction J axes = Some (gt, om) -> get_jacobian_for_reduction (cntJ m) axes = Some (gt', om') -> om' = om.
Proof.
  intros Em H H'. unfold get_jacobian_for_reduction in *. cbv zeta in H, H'. rewrite (mask_sparse _ Em) in H. rewrite (@mask_sparse _ (cntJ m) m eq_refl) in H'.
  destruct (get_index_mask J _) as [im|]; [|discriminate]. destruct (get_index_mask (cntJ m) _) as [im'|]; [|discriminate]. cbn [bind] in H, H'.
  destruct (materialize_for_idx J _ _ _); [|discriminate]. destruct (materialize_for_idx (cntJ m) _ _ _); [|discriminate]. cbn [bind] in H, H'. congruence.
Qed.
Section T3.
Context {A : Type} {RA : CRing A}.
Add Ring Aring_ST3 : (@rth A RA).
Open Scope cr_scope.
Lemma reduction_good n f a axes th fl ax : (0 < n)%nat -> good n a -> weak (ljac a) = true -> let nax := norm_axes (ndim (lx a)) axes in NoDup nax -> (forall d, In d nax -> (d < ndim (lx a))%nat) ->
  bto (permute (keep_pos (ndim (lx a)) nax) (sh (lx a))) (sh (o_fwd f [lx a])) -> stepped f [a] (sparse_reduction_jvp f a axes th fl ax).
Proof.
  intros Hn HG Hw nax ND HA Hb. pose proof HG as ((W & Hl) & HF & HN). pose proof Hw as Hw2. unfold weak in Hw2. destruct (jidx (ljac a)) as [m|] eqn:Em; [|discriminate]. destruct (jwf_sparse W Em) as (Sd & Sm & _).
  unfold jfull in HF. rewrite Em, Sm in HF. cbn [tl] in HF. unfold sparse_reduction_jvp.
  assert (En : (ndim (jdata (ljac a)) - 1)%nat = ndim (lx a)) by (unfold ndim; rewrite Sd; cbn [length]; lia). rewrite En. fold nax.
  assert (HS : exists r q, (r < rows m)%nat /\ inb q (sh (lx a)) /\ (0 <= at_ m (r :: q))%Z). { destruct HN as (q & Hq). destruct (HF q Hq) as (r & Hr & Hz). exists r, q. rewrite (rows_cons _ Sm) in *. auto. }
  destruct (@reduction_returns _ _ (ljac a) m n (sh (lx a)) nax W Em ND HA HS) as (gt & om & Eg). rewrite Eg. cbn [bind].
  destruct (th <? Z.of_nat (rows om))%Z; [apply (@dense_jvp_good _ _ n); auto; [congruence|intros b [<-|[]]; exact HG]|].
  destruct (@jac_for_reduction_spec _ _ (ljac a) m n (sh (lx a)) nax W Em ND HA gt om Eg) as (mu & Hmu & Sgt & Som & _). cbv zeta in *.
  assert (W' : jwf n (sh (lx a)) (cntJ m)) by (exact (proj1 (cntA_wf W Em))).
  destruct (@reduction_returns _ _ (cntJ m) m n (sh (lx a)) nax W' eq_refl ND HA HS) as (gt' & om' & Eg'). pose proof (@reduction_mask _ _ (ljac a) m nax gt om gt' om' Em Eg Eg') as EO. subst om'.
  destruct (@jac_for_reduction_spec _ _ (cntJ m) m n (sh (lx a)) nax W' eq_refl ND HA gt' om Eg') as (mu' & _ & _ & Som' & _ & _ & _ & HC). cbv zeta in *. assert (mu' = mu) by congruence. subst mu'.
  unfold bexc. rewrite Sgt. cbn [tl expand0 sh]. rewrite Hl, bshape2_refl. cbn [bind]. 
  set (tan := concat0 0 [bexc1 (sh (lx a)) gt; bexc1 (sh (lx a)) (expand0 (llap a))]).
  assert (St : sh tan = (mu + 1)%nat :: sh (lx a)) by (apply concat2_sh; rewrite bexc1_sh; [rewrite (rows_cons _ Sgt)|]; reflexivity). rewrite (rows_cons _ St).
  set (yt := vmap_jvp f [lx a] (mu + 1) [tan]). set (so := sh (o_fwd f [lx a])).
  assert (Sy : sh (butlast yt) = mu :: so) by (unfold butlast, yt, vmap_jvp, stack, rows; cbn [sh hd tl]; f_equal; lia).
  destruct (@bmj_intro _ om (butlast yt) _ _ _ Som Sy Hb) as (m2 & E4). destruct (bmj_spec _ _ Som Sy E4) as (_ & S4 & A4). rewrite E4. cbn [bind]. rewrite Sy, S4. rewrite (proj2 (sheq_eq _ _) eq_refl).
  do 3 eexists. split; [reflexivity|]. split; [reflexivity|]. split; [reflexivity|]. unfold jfull. cbn [jidx]. rewrite S4. cbn [tl]. intros p Hp. rewrite (rows_cons _ S4).
  set (t := permute (keep_pos (ndim (lx a)) nax) (sh (lx a))) in *. assert (Hc : inb (bproj t p) t) by (eapply bproj_inb; eauto).
  destruct (@keep_ne (sh (lx a)) nax HA HN) as [_ (j & Hj)]. unfold ndim in *.
  assert (Hq : inb (weave (length (sh (lx a))) nax (bproj t p) j) (sh (lx a))) by (apply weave_inb; auto).
  assert (EK : permute (keep_pos (length (sh (lx a))) nax) (weave (length (sh (lx a))) nax (bproj t p) j) = bproj t p) by (apply weave_keep; rewrite (inb_length Hc); apply permute_length).
  destruct (HF _ Hq) as (r & Hr & Hz). pose proof (@cnt_pos m r _ Hr Hz) as Hpos. set (z := at_ m (r :: weave (length (sh (lx a))) nax (bproj t p) j)) in *.
  destruct (existsb (fun r' => Z.eqb (at_ om (r' :: bproj t p)) z) (seq 0 mu)) eqn:Ex.
  - apply existsb_exists in Ex. destruct Ex as (r' & Hr' & E'). apply in_seq in Hr'. apply Z.eqb_eq in E'. exists r'. split; [lia|]. rewrite A4 by (auto; lia). change (0 <= at_ om (r' :: bproj t p))%Z. rewrite E'. exact Hz.
  - exfalso. specialize (HC (Z.to_nat z) _ Hq). rewrite EK in HC. rewrite HC in Hpos; [cbn in Hpos; lia|]. intros r' Hr' E'. rewrite Z2Nat.id in E' by exact Hz.
    assert (existsb (fun r' => Z.eqb (at_ om (r' :: bproj t p)) z) (seq 0 mu) = true); [|congruence]. apply existsb_exists. exists r'. split; [apply in_seq; lia|]. apply Z.eqb_eq. exact E'.
Qed.
(* ---- index operations ---- *)
Lemma index_good n g ok filled mg args extra fl ax : (0 < n)%nat -> args <> [] -> (forall a, In a args -> good n a) -> merge_ok mg (length args) (length extra) ->
  iop_wf g (map (@sh A) (mg _ (xs_of args) extra)) ->
  (all_weak args = true -> ok = true -> forall p, inb p (i_shape g) -> exists a, (a < length args)%nat /\ fst (i_src g p) = posof mg (length args) (length extra) a) ->
  stepped (merged (iop_op g) mg (length args) extra) args (sparse_index_jvp g ok filled mg args extra fl ax).
Proof.
  intros Hn Hne HG Hm Hg HE. unfold sparse_index_jvp. set (f := merged (iop_op g) mg (length args) extra) in *. destruct (all_weak args) eqn:EW; cbn [negb]; [|apply (@dense_jvp_good _ _ n); auto].
  match goal with |- stepped _ _ (if ?c then _ else _) => destruct c eqn:EC end; [apply (@dense_jvp_good _ _ n); auto|]. apply orb_false_iff in EC. destruct EC as [EC _]. apply negb_false_iff in EC. specialize (HE eq_refl EC).
  cbv zeta.
  set (mm := stack _ _ _). set (yt := vmap_jvp f (xs_of args) _ _). assert (Sy : sh (butlast yt) = sh mm) by (unfold butlast, yt, vmap_jvp, mm, stack, rows; cbn [sh hd tl]; f_equal; lia).
  rewrite Sy. rewrite (proj2 (sheq_eq _ _) eq_refl). do 3 eexists. split; [reflexivity|]. split; [reflexivity|]. split; [reflexivity|].
  unfold jfull. cbn [jidx]. unfold mm. cbn [stack sh tl]. intros p Hp. destruct (HE p Hp) as (a & Ha & Pa). unfold rows at 1. cbn [sh hd].
  destruct (all_weak_nth args EW Ha) as [m Em]. destruct (HG _ (nth_In _ la0 Ha)) as ((W & _) & HF & _). destruct (jwf_sparse W Em) as (_ & Sm & _). unfold jfull in HF. rewrite Em, Sm in HF. cbn [tl] in HF.
  destruct (Hg p Hp) as [Hg1 Hg2]. rewrite Pa in Hg2.
  destruct (@merge_posof mg (length args) (length extra) (nd A) nd0 (xs_of args) extra a Hm (xs_length args) eq_refl Ha) as [_ EN].
  assert (Hq : inb (snd (i_src g p)) (sh (lx (nth a args la0)))).
  { rewrite <- xs_nth by exact Ha. rewrite <- EN. change [] with (sh (@nd0 A RA)) in Hg2. rewrite map_nth in Hg2. exact Hg2. }
  destruct (HF _ Hq) as (r & Hr & Hz). rewrite (rows_cons _ Sm) in Hr. set (masks := broadcast_dim (-1)%Z (map (fun a => mask (ljac a)) args)).
  set (M := maxl (map (@rows Z) (map (fun a => mask (ljac a)) args))).
  assert (HM : (rows m <= M)%nat). { apply maxl_ge. apply in_map_iff. exists m. split; [reflexivity|]. apply in_map_iff. exists (nth a args la0). split; [apply mask_sparse; exact Em|apply nth_In; exact Ha]. }
  assert (Lm : length masks = length args) by (unfold masks, broadcast_dim; rewrite !map_length; reflexivity).
  assert (EMa : nth a masks (Nd [] (fun _ => (-1)%Z)) = pad_rows (-1)%Z M m). { unfold masks, broadcast_dim. fold M. rewrite map_map. rewrite nth_map_in with (dx := la0) by exact Ha. rewrite (mask_sparse _ Em). reflexivity. }
  rewrite (rows_cons _ Sm) in HM. destruct (pad_rows_spec (-1)%Z _ Sm HM) as [SP AP].
  assert (HK : (M <= maxl (map (@rows Z) masks))%nat). { replace M with (rows (pad_rows (-1)%Z M m)) by (apply (rows_cons _ SP)). apply maxl_ge. apply in_map. rewrite <- EMa. apply nth_In. rewrite Lm. exact Ha. }
  exists r. split; [cbn [stack sh hd]; lia|]. unfold stack. cbn [at_ hd tl iop_fwd]. destruct (i_src g p) as [b q] eqn:Es. cbn [fst snd] in *. subst b.
  destruct (@merge_posof mg (length args) (length extra) (nd Z) (Nd [] (fun _ => (-1)%Z)) (map (fun t => row t r) masks) (map (fun e : nd A => Nd (sh e) (fun _ => (-1)%Z)) extra) a Hm) as [_ ->]; auto; try (rewrite map_length; auto).
  rewrite nth_map_in with (dx := Nd [] (fun _ => (-1)%Z)) by lia. rewrite EMa. cbn [row at_]. rewrite AP by lia. rewrite (proj2 (Nat.ltb_lt _ _) Hr). exact Hz.
Qed.
End T3.
Section T4.
Context {A : Type} {RA : CRing A}.
Add Ring Aring_ST4 : (@rth A RA).
Open Scope cr_scope.
Lemma bshapes1 s : bshapes [s] <> None.
Proof. destruct (@bshapes_ex [s] s) as (t & E); [intros t [<-|[]]; apply bto_refl|]. rewrite E. discriminate. Qed.
(* ---- one argument ---- *)
Lemma sparse_jvp1_good n f kw a th fl ax : (0 < n)%nat -> good n a -> struct_at f kw fl ax [lx a] 0 ->
  (axes_of kw ax (lx a) <> [] -> has SUMMATION fl = false -> bto (permute (keep_pos (ndim (lx a)) (norm_axes (ndim (lx a)) (axes_of kw ax (lx a)))) (sh (lx a))) (sh (o_fwd f [lx a]))) ->
  stepped f [a] (sparse_jvp1 f kw a th fl ax).
Proof.
  intros Hn HG Hst Hb. unfold sparse_jvp1. fold (axes_of kw ax (lx a)).
  destruct (weak (ljac a)) eqn:W; cbn [negb]; [|apply (@dense_jvp_good _ _ n); auto; [congruence|intros b [<-|[]]; exact HG]].
  unfold struct_at in Hst. cbn [nth] in Hst. destruct (axes_of kw ax (lx a)) as [|z zs] eqn:Eax.
  - apply (@diag_good _ _ n); auto; [congruence|intros b [<-|[]]; exact HG| |apply bshapes1].
    intros b Hlt. cbn in Hlt. assert (b = 0)%nat by lia. subst b. exact Hst.
  - rewrite <- Eax in *. destruct Hst as (ND & HA & Hst). destruct (has SUMMATION fl) eqn:ES.
    + destruct Hst as [_ (_ & Ef & _)]. destruct (@sum_good _ _ n a _ th Hn HG ND HA W) as (y & g & l & E & Ey & El & Hf).
      exists y, g, l. split; [exact E|]. split; [cbn [xs_of map]; congruence|]. split; [exact El|exact Hf].
    + apply (@reduction_good _ _ n); auto. apply Hb; [congruence|reflexivity].
Qed.
(* ---- get_jvp_function ---- *)
Theorem jvp_good n F mg extra th fl ax args : (0 < n)%nat -> args <> [] -> merge_ok mg (length args) (length extra) -> (forall a, In a args -> good n a) ->
  let f := merged (f_op F) mg (length args) extra in let xs := xs_of args in ne (sh (o_fwd f xs)) ->
  (forall a, (a < length args)%nat -> struct_at f (f_kwaxes F) fl ax xs a) -> iop_ok F fl (mg _ xs extra) ->
  (forall x, In x xs -> axes_of (f_kwaxes F) ax x <> [] -> has SUMMATION fl = false -> bto (permute (keep_pos (ndim x) (norm_axes (ndim x) (axes_of (f_kwaxes F) ax x))) (sh x)) (sh (o_fwd f xs))) ->
  (axes_nil ax = true -> bshapes (map (@sh A) xs) <> None) ->
  (forall g filled, all_weak args = true -> has INDEXING fl = true -> f_iop F = Some (g, true, filled) -> forall p, inb p (i_shape g) -> exists a, (a < length args)%nat /\ fst (i_src g p) = posof mg (length args) (length extra) a) ->
  (any_weak args = false \/ all_weak args && (has INDEXING fl || axes_nil ax) = true \/ (length args <= 2)%nat /\ all_weak args = false \/ length args = 1%nat) ->
  stepped f args (jvp_fn F mg extra th fl ax args).
Proof.
  intros Hn Hne Hm HG f xs NE Hst Hio Hred Hbs Hsrc Hc.
  assert (HD : stepped f args (dense_jvp f args fl ax)) by (apply (@dense_jvp_good _ _ n); auto).
  assert (H1 : forall a, args = [a] -> stepped f args (sparse_jvp1 f (f_kwaxes F) a th fl ax)).
  { intros a E. subst args. refine (@sparse_jvp1_good n f _ a th fl ax Hn (HG a (or_introl eq_refl)) (Hst 0%nat Nat.lt_0_1) _). intros X Y. exact (Hred _ (or_introl eq_refl) X Y). }
  unfold jvp_fn. destruct (negb (any_weak args) || _) eqn:Ec.
  - unfold parallel_jvp. fold f. destruct (all_weak args) eqn:Hw; cbn [negb]; [|exact HD].
    destruct (has INDEXING fl) eqn:Hix.
    + unfold iop_ok in Hio. destruct (f_iop F) as [[[g ok] filled]|]; [|exact HD]. destruct Hio as [Ef Hg]. unfold f. rewrite Ef. apply (@index_good _ _ n); auto. intros _ Eo. subst ok. apply (Hsrc g filled); reflexivity.
    + unfold sparse_jvp. destruct args as [|a [|b args']]; [congruence|exact (H1 a eq_refl)|]. rewrite Hw. cbn [negb].
      destruct (axes_nil ax) eqn:Eax; [|cbn [length Nat.eqb orb andb] in Ec; rewrite orb_false_r in Ec; cbn [all_weak forallb any_weak existsb] in *; apply andb_true_iff in Hw; destruct Hw as [Hw1 _]; rewrite Hw1 in Ec; discriminate].
      apply (@diag_good _ _ n); auto. intros i Hi. unfold xs in Hi. fold xs in Hi. unfold xs in Hi. rewrite xs_length in Hi. specialize (Hst i Hi). unfold struct_at in Hst. destruct ax as [[|]|]; try discriminate. exact Hst.
  - apply orb_false_iff in Ec. destruct Ec as [Ew Ec]. apply negb_false_iff in Ew.
    assert (H2 : exists a b, args = [a; b] /\ all_weak args = false).
    { destruct Hc as [Hc|[Hc|[[Hc1 Hc2]|Hc]]].
      - congruence.
      - apply andb_true_iff in Hc. destruct Hc as [Hc1 Hc2]. rewrite Hc1, Hc2 in Ec. discriminate.
      - destruct args as [|a [|b [|c l]]]; [congruence| |eauto|cbn in Hc1; lia]. cbn in Hc2, Ew. rewrite andb_true_r in Hc2. rewrite orb_false_r in Ew. congruence.
      - destruct args as [|a [|b l]]; cbn in Hc; try lia. cbn in Ec, Ew. rewrite orb_false_r in Ew. rewrite Ew in Ec. cbn in Ec. rewrite orb_true_r in Ec. discriminate. }
    destruct H2 as (a & b & Eab & Hmix). assert (L2 : (2 <= length args)%nat) by (subst args; cbn; lia).
    assert (HR : forall i, (i < length args)%nat -> exists g l, sparse_jvp1 (obo_op F mg extra args i) (f_kwaxes F) (nth i args la0) th fl ax = Some (o_fwd f xs, g, l) /\ jwf n (sh (o_fwd f xs)) g /\ sh l = sh (o_fwd f xs) /\ jfull g /\ (weak (ljac (nth i args la0)) = false -> weak g = false)).
    { intros i Hi. assert (Gi : good n (nth i args la0)) by (apply HG, nth_In; exact Hi). destruct (@obo_op_spec _ _ F mg extra args n Hn Hm L2 i Hi) as [E1 _]. pose proof (@obo_struct _ _ F mg extra args n Hn Hm L2 i (f_kwaxes F) fl ax Hi (Hst i Hi)) as Si. fold f in E1. fold xs in E1.
      destruct (@sparse_jvp1_good n _ (f_kwaxes F) _ th fl ax Hn Gi Si) as (y & g & l & E & Ey & El & Hf).
      - intros X Y. rewrite E1. apply Hred; auto. unfold xs, xs_of. apply in_map. apply nth_In. exact Hi.
      - assert (R1 : jrow1 (ljac (nth i args la0))) by (destruct Gi as ((W & _) & F1 & N1); eapply full_row1; eauto).
        destruct (@sparse_jvp1_sound _ _ n _ _ _ _ _ _ _ Hn (proj1 Gi) R1 Si E) as (S1 & _ & _ & S4 & _). cbn [step_ok xs_of map fst snd] in *. rewrite E1 in *. destruct S1 as (_ & S2 & S3 & _). subst y. exists g, l. split; [exact E|]. split; [exact S2|]. split; [exact El|]. split; [exact Hf|exact S4]. }
    destruct (HR 0%nat ltac:(lia)) as (g1 & l1 & E1 & W1 & L1 & F1 & D1). destruct (HR 1%nat ltac:(lia)) as (g2 & l2 & E2 & W2 & L2' & F2 & D2).
    unfold one_by_one_jvp. fold xs. assert (N0 : nth 0 args la0 = a) by (rewrite Eab; reflexivity). assert (N1 : nth 1 args la0 = b) by (rewrite Eab; reflexivity). rewrite N0 in E1, D1. rewrite N1 in E2, D2.
    assert (EL : obo_loop F mg extra xs th fl ax 0 args None = obo_loop F mg extra xs th fl ax 0 [a; b] None) by (rewrite <- Eab; reflexivity). rewrite EL. cbn [obo_loop].
    change (sparse_jvp1 (obo_op F mg extra args 0) (f_kwaxes F) a th fl ax) with (sparse_jvp1 (merged (f_op F) (new_merge mg (length xs - 1) 0) 1 (extra ++ firstn 0 xs ++ skipn (0 + 1) xs)) (f_kwaxes F) a th fl ax) in E1.
    change (sparse_jvp1 (obo_op F mg extra args 1) (f_kwaxes F) b th fl ax) with (sparse_jvp1 (merged (f_op F) (new_merge mg (length xs - 1) 1) 1 (extra ++ firstn 1 xs ++ skipn (1 + 1) xs)) (f_kwaxes F) b th fl ax) in E2.
    rewrite E1. cbn [bind]. rewrite E2. cbn [bind].
    destruct (@jadd_dense _ _ g1 g2 n _ W1 W2 (full_nonempty W1 F1 NE) (full_nonempty W2 F2 NE) Hn) as (R & ER & WR & _).
    { rewrite Eab in Hmix. cbn in Hmix. rewrite andb_true_r in Hmix. apply andb_false_iff in Hmix. apply andb_false_iff. destruct Hmix as [X|X]; [left|right]; auto. }
    rewrite ER. cbn [bind]. destruct (@bin_same _ radd _ _ _ L1 L2') as (l3 & El & Sl & _). rewrite El. cbn [bind].
    exists (o_fwd f xs), R, l3. split; [reflexivity|]. split; [reflexivity|]. split; [exact Sl|apply dense_full; exact WR].
Qed.
End T4.

(* ---- the second-order term ---- *)
(* specification: the two shapes have the same axes, axes of length one aside *)
Definition same_axes (s t : shape) : Prop := filter (fun d => negb (Nat.eqb d 1)) s = filter (fun d => negb (Nat.eqb d 1)) t.
Lemma permute_filter (P : nat -> bool) : forall (s : shape) k, (forall i, i < length s -> P (k + i) = negb (Nat.eqb (nth i s 0) 1)) ->
  map (fun i => nth (i - k) s 0) (filter P (seq k (length s))) = filter (fun d => negb (Nat.eqb d 1)) s.
Proof.
  induction s as [|a s IH]; intros k H; [reflexivity|]. cbn [length seq filter].
  assert (E : map (fun i => nth (i - k) (a :: s) 0) (filter P (seq (S k) (length s))) = map (fun i => nth (i - S k) s 0) (filter P (seq (S k) (length s)))).
  { apply map_ext_in. intros i Hi. apply filter_In in Hi. destruct Hi as [Hi _]. apply in_seq in Hi. replace (i - k) with (S (i - S k)) by lia. reflexivity. }
  assert (IH' : map (fun i => nth (i - S k) s 0) (filter P (seq (S k) (length s))) = filter (fun d => negb (Nat.eqb d 1)) s).
  { apply IH. intros i Hi. specialize (H (S i) ltac:(cbn; lia)). replace (S k + i) with (k + S i) by lia. exact H. }
  pose proof (H 0 ltac:(cbn; lia)) as H0. rewrite Nat.add_0_r in H0. cbn [nth] in H0. rewrite H0. destruct (negb (Nat.eqb a 1)); cbn [map]; [rewrite Nat.sub_diag; change (nth 0 (a :: s) 0) with a|]; rewrite E, IH'; reflexivity.
Qed.
Lemma kept_axes leaves brd : brdcast_shape leaves = Some brd -> (forall l, In l leaves -> leaf_ok l) -> permute (keep_idx leaves brd) brd = filter (fun d => negb (Nat.eqb d 1)) brd.
Proof.
  intros HB Hok. unfold permute, keep_idx. rewrite <- (@permute_filter (fun i => existsb (fun l => is_some (nth i (vmap_sequence (fst l) brd (snd l)) None)) leaves) brd 0).
  - apply map_ext. intros i. rewrite Nat.sub_0_r. reflexivity.
  - intros i Hi. cbn [Nat.add]. assert (HI : In i (keep_idx leaves brd) <-> existsb (fun l => is_some (nth i (vmap_sequence (fst l) brd (snd l)) None)) leaves = true).
    { unfold keep_idx. rewrite filter_In, in_seq. split; [tauto|]. intros X. split; [lia|exact X]. }
    destruct (existsb _ leaves) eqn:E.
    + assert (X : nth i brd 0 <> 1) by (apply (@kept_size _ _ i HB Hok); apply HI; reflexivity). apply Nat.eqb_neq in X. rewrite X. reflexivity.
    + assert (X : nth i brd 0 = 1) by (apply (@brd_one _ _ i HB Hok Hi); intro Y; apply HI in Y; discriminate). apply Nat.eqb_eq in X. rewrite X. reflexivity.
Qed.
Section T5.
Context {A : Type} {RA : CRing A}.
Add Ring Aring_ST5 : (@rth A RA).
Open Scope cr_scope.
Lemma reduced_some n args (o : nd Z) R : (forall a, In a args -> awf n a) -> sh o = [R] -> (0 < R)%nat -> exists g, get_reduced_jacobians (map (@ljac A) args) (Some o) = Some g.
Proof.
  intros Hw Ho HR. unfold get_reduced_jacobians. rewrite (rows_cons _ Ho). destruct (Nat.eqb_spec R 0); [lia|]. rewrite map_map.
  destruct (@sequence_total _ (map (fun x : lapl A => construct_jac_for_idx (ljac x) o) args)) as (dj & E); [|rewrite E; cbn [bind]; eauto].
  intros c Hc. apply in_map_iff in Hc. destruct Hc as (a & <- & Ha). destruct (Hw a Ha) as [W _]. pose proof W as (k & Hk & _).
  destruct (jidx (ljac a)) as [m|] eqn:Em.
  - destruct (@construct_sparse_spec _ _ (ljac a) m o n k _ R [] W Em Hk Ho (bto_nil _) HR) as (res & E1 & _). eauto.
  - unfold construct_jac_for_idx. rewrite (rows_cons _ Ho), Em. destruct (Nat.eqb_spec R 0); [lia|]. eauto.
Qed.
Lemma mleaves_brd n (args : list (lapl A)) axs extra eaxs brd : length axs = length args -> (forall a, In a args -> awf n a) -> brdcast_shape (leaves_of args axs extra eaxs) = Some brd ->
  exists brda, brdcast_shape (mleaves args axs) = Some brda /\ bto brda brd.
Proof.
  intros La Hw HB. unfold brdcast_shape in *. apply bshapes_spec in HB. destruct HB as [HB _].
  assert (HM : forall s, In s (map (fun l => reduced_shape (fst l) (snd l)) (mleaves args axs)) -> bto s brd).
  { intros s Hs. apply in_map_iff in Hs. destruct Hs as (l & <- & Hl). destruct (@mleaves_inv _ _ n args axs l La Hw Hl) as (a & k & Ha & ->). cbn [fst snd]. rewrite reduced_jac. apply HB.
    apply in_map_iff. exists (sh (lx (nth a args la0)), nth a axs []). split; [reflexivity|apply leaves_arg; auto]. }
  destruct (@bshapes_ex _ _ HM) as (brda & E). exists brda. split; [exact E|]. apply bshapes_spec in E. destruct E as [_ E]. apply E. exact HM.
Qed.
Theorem batched_some n f c2r fl cu mg dense_out args axs extra eaxs (o : nd Z) brd : setup n f mg args axs extra eaxs -> brdcast_shape (leaves_of args axs extra eaxs) = Some brd ->
  let ki := keep_idx (leaves_of args axs extra eaxs) brd in sh o = rows o :: permute ki brd ->
  (forall b args' es o', inb b brd -> sliced n args axs b args' -> mslices eaxs extra b es -> sh o' = [rows o] ->
     exists r0, hess_transform f c2r fl cu mg dense_out args' es (Some o') = Some r0 /\ prod (sh r0) = prod (sh (o_fwd (merged f mg (length args) es) (xs_of args')))) ->
  let so := sh (o_fwd f (mg _ (xs_of args) extra)) in
  exists r, (let* r := batched_eval f c2r fl cu mg dense_out args axs extra eaxs (Some o) in if Nat.eqb (prod (sh r)) (prod so) then Some (reshape so r) else None) = Some r /\ sh r = so.
Proof.
  intros [H1 H2 H3 H4 H5 H6 H7] Hbrd ki So Hloc so. pose proof H5 as [La _]. pose proof H6 as [Le _]. rewrite xs_length in La.
  destruct (@merged_batched _ _ f mg args axs extra eaxs brd H4 La Le H7 Hbrd) as (C & HC & HCs). cbn zeta in HC, HCs. cbn [merged o_fwd] in HC.
  pose proof (@leaves_ok _ _ args axs extra eaxs H5 H6) as Hok.
  assert (Hpk : prod (permute ki brd) = prod brd) by (apply prod_keep_idx; auto).
  assert (Hone : forall k, (k < length brd)%nat -> ~ In k ki -> nth k brd 0%nat = 1%nat) by (intros k Hk Hn; apply (@brd_one _ _ k Hbrd Hok Hk Hn)).
  set (sa := fun b => map2 (fun a ax => slice_lapl (leaf_seq (leaves_of args axs extra eaxs) brd (sh (lx a), ax))
        (map (fun i => nth i (vmap_sequence (sh (jdata (ljac a))) brd (jac_axes ax)) None) ki) ax b a) args axs).
  set (se := fun b => map2 (fun e ax => slice_seq (leaf_seq (leaves_of args axs extra eaxs) brd (sh e, ax)) b (squeeze ax e)) extra eaxs).
  assert (Lk : length (permute ki brd) = length ki) by apply permute_length.
  assert (Hat : forall b, inb b (permute ki brd) -> exists r0, hess_transform f c2r fl cu mg dense_out (sa b) (se b) (Some (slice_idx (length ki) b o)) = Some r0 /\ prod (sh r0) = prod C).
  { intros b0 Hb0. destruct (@bexp_spec brd ki (keep_idx_filter _ _) Hone b0 Hb0) as [B1 B2]. set (b := bexp ki (length brd) b0) in *.
    assert (S1 : sliced n args axs b (sa b0)).
    { rewrite <- B2. split; [apply map2_len; lia|]. intros a Ha. unfold sa. rewrite map2_nth with (dx := la0) (dy := []) by lia.
      apply slice_lapl_of; auto; [apply leaves_arg; auto|apply Hok, leaves_arg; auto|apply H3, nth_In; auto]. }
    assert (S2 : mslices eaxs extra b (se b0)).
    { rewrite <- B2. split; [apply map2_len; lia|]. split; [auto|]. intros a Ha. unfold se. rewrite map2_nth with (dx := nd0) (dy := []) by lia.
      apply eqa_sym, eql_eqa, leaf_slice; auto; [apply leaves_extra; auto|apply Hok, leaves_extra; auto]. }
    assert (So' : sh (slice_idx (length ki) b0 o) = [rows o]) by (rewrite <- Lk; apply (@slice_idx_spec o (rows o) (permute ki brd) b0 So Hb0)).
    destruct (Hloc b (sa b0) (se b0) _ B1 S1 S2 So') as (r0 & E1 & E2). exists r0. split; [exact E1|]. rewrite E2.
    destruct (HCs b (xs_of (sa b0)) (se b0) B1 (@sliced_mslices _ _ n args axs b _ La S1) S2) as [E3 _]. rewrite E3. reflexivity. }
  unfold batched_eval. rewrite Hbrd. cbn [bind option_map]. fold ki. fold (sa).
  assert (EG : Nat.eqb (ndim o) (S (length ki)) && forallb (fun d => mem (S d) (snd (compact o)) || Nat.eqb (nth (S d) (sh o) 0%nat) (nth d (permute ki brd) 0%nat)) (seq 0 (length ki)) = true).
  { apply andb_true_iff. split; [apply Nat.eqb_eq; unfold ndim; rewrite So; cbn [length]; rewrite Lk; reflexivity|]. apply forallb_forall. intros d _. rewrite So. cbn [nth]. rewrite Nat.eqb_refl. apply orb_true_r. }
  rewrite EG. cbn [negb].
  match goal with |- context [map ?F (allix (permute ki brd))] => set (at_b := F) end.
  assert (Hab : forall b, inb b (permute ki brd) -> exists r0, at_b b = Some r0 /\ prod (sh r0) = prod C) by (intros b Hb; exact (Hat b Hb)).
  destruct (@sequence_total _ (map at_b (allix (permute ki brd)))) as (rs & Ers).
  { intros c Hc. apply in_map_iff in Hc. destruct Hc as (b & <- & Hb). apply allix_spec in Hb. destruct (Hab b Hb) as (r0 & E & _). eauto. }
  rewrite Ers. cbn [bind sh].
  assert (EP : prod (permute ki brd ++ sh (hd nd0 rs)) = prod so).
  { unfold so. rewrite HC, !prod_app, Hpk. destruct (Nat.eq_dec (prod brd) 0) as [E0|E0]; [rewrite E0; reflexivity|]. f_equal.
    destruct (sequence_spec _ Ers) as [Ls Hs]. rewrite map_length in Ls, Hs.
    assert (Hpos : (0 < length (allix (permute ki brd)))%nat) by (rewrite allix_length, Hpk; lia).
    specialize (Hs 0%nat nd0 None Hpos). rewrite nth_map_in with (dx := ([] : ix)) in Hs by exact Hpos.
    assert (Hb : inb (nth 0 (allix (permute ki brd)) []) (permute ki brd)) by (apply allix_spec, nth_In; exact Hpos).
    destruct (Hab _ Hb) as (r0 & E1 & E2). rewrite E1 in Hs. injection Hs as Hs. destruct rs as [|r1 rs']; [cbn in Ls; lia|]. cbn [hd nth] in *. congruence. }
  rewrite EP, Nat.eqb_refl. eexists. split; reflexivity.
Qed.
(* folx batches the index array over the axes of the derivative-carrying arguments only *)
Definition plan_ok (args : list (lapl A)) (axs : list (list nat)) (extra : list (nd A)) (eaxs : list (list nat)) : Prop :=
  forall brda brd, brdcast_shape (mleaves args axs) = Some brda -> brdcast_shape (leaves_of args axs extra eaxs) = Some brd -> same_axes brda brd.
Theorem vmapped_good n f c2r fl cu extra axs eaxs mg th args : setup n f mg args axs extra eaxs -> has SPARSE_JHJ fl = false -> has DOT_PRODUCT fl = false ->
  (forall a, In a args -> good n a) -> let so := sh (o_fwd f (mg _ (xs_of args) extra)) in ne so -> (any_weak args = true -> plan_ok args axs extra eaxs) ->
  (forall d, setup n f mg d axs extra eaxs -> xs_of d = xs_of args -> (forall a, In a d -> dense_la a) -> exists r, vmapped_jhj f c2r fl cu extra axs eaxs mg th d = Some r /\ sh r = so) ->
  (forall b args' es o' R, sliced n args axs b args' -> mslices eaxs extra b es -> sh o' = [R] -> (0 < R)%nat ->
     exists r0, hess_transform f c2r fl cu mg false args' es (Some o') = Some r0 /\ prod (sh r0) = prod (sh (o_fwd (merged f mg (length args) es) (xs_of args')))) ->
  exists r, vmapped_jhj f c2r fl cu extra axs eaxs mg th args = Some r /\ bto (sh r) so.
Proof.
  intros HS HJ HD HG so NE HP Hdense Hloc. destruct (any_weak args) eqn:EW.
  2:{ destruct (Hdense args HS eq_refl) as (r & E1 & E2).
      - intros a Ha. apply dense_weak. destruct (weak (ljac a)) eqn:E; auto. assert (any_weak args = true) by (apply existsb_exists; eauto). congruence.
      - exists r. split; [exact E1|]. rewrite E2. apply bto_refl. }
  specialize (HP eq_refl). pose proof HS as [H1 H2 H3 H4 H5 H6 H7]. pose proof H5 as [La _]. pose proof H6 as [Le _]. rewrite xs_length in La.
  destruct (@batched_brd _ _ f mg args axs extra eaxs H4 La Le H7) as (brd & Hbrd).
  destruct (@merged_batched _ _ f mg args axs extra eaxs brd H4 La Le H7 Hbrd) as (C & HC & _). cbn zeta in HC. cbn [merged o_fwd] in HC.
  destruct (@mleaves_brd n args axs extra eaxs brd La H3 Hbrd) as (brda & Ea & Hab). specialize (HP brda brd Ea Hbrd).
  assert (NB : ne brd). { destruct NE as (p & Hp). unfold so in Hp. rewrite HC in Hp. exists (firstn (length brd) p). pose proof (inb_length Hp) as Lp. rewrite app_length in Lp. rewrite <- (firstn_skipn (length brd) p) in Hp. apply inb_app_inv in Hp; [apply Hp|]. rewrite firstn_length. lia. }
  pose proof (@leaves_ok _ _ args axs extra eaxs H5 H6) as Hok. pose proof (@mleaves_ok _ _ n args axs H5 H3) as Hokm.
  assert (EK : permute (keep_idx (mleaves args axs) brda) brda = permute (keep_idx (leaves_of args axs extra eaxs) brd) brd) by (rewrite !kept_axes by assumption; exact HP).
  assert (HF : exists o dn, find_out_idx args axs fl th = Some (Some o, dn)).
  { unfold find_out_idx. rewrite EW. cbn [negb]. fold (mleaves args axs). rewrite Ea. cbn [bind]. destruct (allix (permute (keep_idx (mleaves args axs) brda) brda)) as [|i l] eqn:EA; [|eauto].
    exfalso. destruct NB as (b & Hb). pose proof (bproj_inb Hab Hb) as Hb2. 
    assert (X : In (permute (keep_idx (mleaves args axs) brda) (bproj brda b)) (allix (permute (keep_idx (mleaves args axs) brda) brda))).
    { apply allix_spec. apply permute_inb; auto. intros d Hd. apply filter_In in Hd. destruct Hd as [Hd _]. apply in_seq in Hd. lia. }
    rewrite EA in X. destruct X. }
  destruct HF as (o & dn & EF). unfold vmapped_jhj. fold so. rewrite EF. cbn [bind]. rewrite HJ, HD. cbn [negb andb]. rewrite andb_true_r.
  destruct dn.
  - destruct (@good_args_dense _ _ n args H1 HG) as (d & Ed). rewrite Ed. cbn [bind]. destruct (@args_dense_spec _ _ n args d H1 H3 Ed) as (Ld & Xd & Wd & _).
    assert (Dd : forall a, In a d -> dense_la a).
    { intros a Ha. apply (In_nth _ _ la0) in Ha. destruct Ha as (k & Hk & <-). destruct (sequence_spec _ Ed) as [_ Hq]. specialize (Hq k la0 None). rewrite map_length in Hq. rewrite Ld in Hk. specialize (Hq Hk). rewrite nth_map_in with (dx := la0) in Hq by exact Hk.
      unfold lapl_dense, as_dense in Hq. destruct (dense_array _); [|discriminate]. cbn [bind] in Hq. injection Hq as <-. reflexivity. }
    destruct (Hdense d (setup_dense HS Ed) Xd Dd) as (r & E1 & E2). pose proof (@vmapped_dense_eq _ _ f c2r fl cu extra axs eaxs mg th d Dd) as EQ. cbn zeta in EQ. rewrite HD in EQ. cbn [andb] in EQ. rewrite Xd in EQ. fold so in EQ.
    rewrite <- EQ. exists r. split; [exact E1|]. rewrite E2. apply bto_refl.
  - cbn [bind]. destruct (@find_out_idx_spec _ _ n args axs fl th o false H2 H3 H5 EF) as (_ & brda' & Lf & Ea' & So & _). assert (brda' = brda) by congruence. subst brda'. cbv zeta in So. rewrite EK in So.
    destruct (Nat.eqb_spec (rows o) 0) as [E0|E0]; [exists nd0; split; [reflexivity|apply bto_nil]|].
    destruct (@batched_some n f c2r fl cu mg false args axs extra eaxs o brd HS Hbrd So) as (r & E1 & E2).
    + intros b args' es o' Hb S1 S2 S3. apply (Hloc b args' es o' (rows o)); auto. lia.
    + exists r. split; [exact E1|]. rewrite E2. apply bto_refl.
Qed.
End T5.
