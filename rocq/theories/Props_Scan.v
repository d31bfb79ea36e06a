(* Props_Scan.v : C29 in sparse mode, and C02 for programs with scans. *)
From Coq Require Import Reals Lra QArith.
From Coquelicot Require Import Coquelicot.
From Verif Require Export Props_Layout Props_Static ScanReset.
Set Implicit Arguments.
Open Scope nat_scope.

(* ---- specification ---- *)
(* the same arrays: equal values, Jacobian data and Laplacians, and index tensors of equal shape and with equal elements *)
Definition same_arrays {A} (a b : arg A) : Prop :=
  match a, b with
  | AX x, AX y => x = y
  | AL u, AL v => lx u = lx v /\ jdata (ljac u) = jdata (ljac v) /\ llap u = llap v /\
      match jidx (ljac u), jidx (ljac v) with None, None => True | Some m, Some m' => sh m = sh m' /\ (forall p, inb p (sh m) -> at_ m p = at_ m' p) | _, _ => False end
  | _, _ => False
  end.
(* running the body for t in ts, from the carry c: the last carry, and what is emitted at each iteration.
   [cs] are the constants, [inp] the scanned arrays; every iteration gets the constants, the carry of the iteration before it and the slices at t. *)
Inductive unrolled {A} (body : list (arg A) -> option (list (arg A))) (ncarry : nat) (cs inp : list (arg A)) : list nat -> list (arg A) -> list (arg A) -> list (list (arg A)) -> Prop :=
| un_done c : unrolled body ncarry cs inp [] c c []
| un_step t ts c r c1 d ys : body (cs ++ c ++ map (fun x => AX (row (aval x) t)) inp) = Some r -> Forall2 same_arrays (firstn ncarry r) c1 ->
    unrolled body ncarry cs inp ts c1 d ys -> unrolled body ncarry cs inp (t :: ts) c d (skipn ncarry r :: ys).

Lemma set_arrays {A} (u v : arg A) : ext_idx u v -> same_arrays v (set_idx v u).
Proof.
  intros H. apply ext_sym in H. destruct u as [b|y], v as [a|x]; cbn in *; tauto.
Qed.
Lemma sets_arrays {A} (us vs : list (arg A)) : Forall2 ext_idx us vs -> Forall2 same_arrays vs (map2 (@set_idx A) vs us).
Proof. induction 1; cbn; constructor; auto. apply set_arrays. assumption. Qed.
Lemma layout_ext {A} (a b : arg A) : same_layout a b -> ext_idx a b.
Proof. destruct a as [u|x], b as [v|y]; cbn; try tauto. intros (_ & _ & E & _). rewrite E. destruct (jidx (ljac v)); auto. Qed.
Lemma layout_refl {A} (a : arg A) : same_layout a a. Proof. destruct a; cbn; auto. Qed.
Lemma type_layout {A} (a c : arg A) : same_type a c = true -> same_layout a (set_idx c a).
Proof.
  destruct a as [u|x], c as [v|y]; cbn; try discriminate; intros H.
  - apply andb_true_iff in H. destruct H as [H H3]. apply andb_true_iff in H. destruct H as [H1 H2]. apply ixeqb_eq in H1, H2, H3. auto.
  - apply ixeqb_eq in H. exact H.
Qed.
Lemma types_layout {A} (carry : list (arg A)) : forall c, Interp.all2 (@same_type A) carry c = true -> Forall2 same_layout carry (map2 (@set_idx A) c carry).
Proof. induction carry as [|a l IH]; intros [|b m] H; cbn in *; try discriminate; constructor; apply andb_true_iff in H; [apply type_layout, H|apply IH, H]. Qed.
Lemma F2_firstn {X Y} (P : X -> Y -> Prop) k l m : Forall2 P l m -> Forall2 P (firstn k l) (firstn k m).
Proof. intros H. revert k. induction H; intros [|k]; cbn; constructor; auto. Qed.
Lemma exts_trans {A} (a b : list (arg A)) : Forall2 ext_idx a b -> forall c, Forall2 ext_idx b c -> Forall2 ext_idx a c.
Proof. induction 1 as [|x y a b H1 H2 IH]; intros c Hc; inversion Hc; subst; constructor; auto. apply ext_trans with (b := y); assumption. Qed.
Lemma exts_join {A} (l m : list (arg A)) : Forall2 ext_idx l m -> forall m', Forall2 ext_idx l m' -> Forall2 ext_idx m m'.
Proof. induction 1 as [|x y l m H1 H2 IH]; intros m' H'; inversion H'; subst; constructor; auto. apply ext_trans with (b := x); auto. apply ext_sym. assumption. Qed.

(* ---- C29, sparse or dense, for every body whose layout depends on layouts only (by C46: every program).  When eval_scan returns, its result is the carry of the
   unrolled loop followed by the stacked outputs of the unrolled loop, and the sparsity pattern of every carry is the initial one: that eval_scan puts the initial index
   tensors back after each iteration changes nothing. ---- *)
Theorem C29_scan_in_any_mode : forall (A : Type) (RA : CRing A) (body : list (arg A) -> option (list (arg A))) (nconst ncarry T : nat) (reverse : bool) (args rs : list (arg A)),
  (forall l l', Forall2 same_layout l l' -> same_outcome (Forall2 same_layout) (body l) (body l')) ->
  eval_scan body nconst ncarry T reverse args = Some rs ->
  let carry0 := firstn ncarry (skipn nconst args) in let inp := skipn (nconst + ncarry) args in
  exists d d' ys, unrolled body ncarry (firstn nconst args) inp (if reverse then rev (seq 0 T) else seq 0 T) carry0 d ys /\ Forall2 same_arrays d d' /\
    rs = d' ++ map (@stack_arg A RA) (cols (AX nd0) (if reverse then rev ys else ys)) /\ Forall2 same_layout carry0 d /\ (forall v, In v inp -> exists x, v = AX x).
Proof.
  intros A RA body nc nk T rv args rs HB H carry0 inp. destruct (@scan_reset A RA body nc nk T rv args rs H) as (fc & fy & d & ys & H1 & H2 & H3 & H4 & H5 & H6 & H7).
  change (s_carry nc nk args) with carry0 in *. pose proof (matches_ext _ _ H2) as HE.
  assert (HI : forall c t c' y, Forall2 same_layout carry0 c -> iterate body nc nk args c t = Some (c', y) -> Forall2 ext_idx carry0 c').
  { intros c t c' y Hc Hi. unfold iterate in H1, Hi. assert (HL : same_outcome (Forall2 same_layout) (body (s_cons nc args ++ carry0 ++ map (fun x => AX (row (aval x) 0)) (s_inp nc nk args))) (body (s_cons nc args ++ c ++ map (fun x => AX (row (aval x) t)) (s_inp nc nk args)))).
    { apply HB. apply Forall2_app; [apply R2_refl; intros; apply layout_refl|]. apply Forall2_app; [exact Hc|]. apply (R2_map (P := eq) _ _ _ (@R2_refl _ eq _ (fun x => eq_refl))). intros u v <-. reflexivity. }
    destruct (body (s_cons nc args ++ carry0 ++ _)) as [r|]; [|discriminate]. destruct (body (s_cons nc args ++ c ++ _)) as [r'|]; [|discriminate]. injection H1 as <- _. injection Hi as <- _. cbn in HL.
    apply exts_trans with (1 := HE). apply (F2_firstn nk) in HL. clear -HL. induction HL; constructor; auto. apply layout_ext. assumption. }
  assert (HU : forall ts c d ys, Forall2 same_layout carry0 c -> loop (reiterate body nc nk args) ts c = Some (d, ys) -> unrolled body nk (s_cons nc args) (s_inp nc nk args) ts c d ys /\ Forall2 same_layout carry0 d).
  { clear d ys H3 H4 H5. induction ts as [|t ts IH]; intros c d ys Hc HL; cbn [loop] in HL; [injection HL as <- <-; split; [constructor|exact Hc]|]. unfold reiterate at 1 in HL.
    destruct (iterate body nc nk args c t) as [[c1 y]|] eqn:Ei; [|discriminate]. change (s_carry nc nk args) with carry0 in HL. destruct (Interp.all2 (@same_type A) carry0 c1) eqn:Et; [|discriminate].
    destruct (loop _ ts _) as [[d2 ys2]|] eqn:El; [|discriminate]. injection HL as <- <-. pose proof (HI c t c1 y Hc Ei) as He. destruct (IH _ d2 ys2 (types_layout _ _ Et) El) as [I1 I2]. split; [|exact I2].
    unfold iterate in Ei. destruct (body _) as [r|] eqn:Eb; [|discriminate]. injection Ei as <- <-. apply un_step with (c1 := map2 (@set_idx A) (firstn nk r) carry0); [exact Eb|apply sets_arrays; exact He|exact I1]. }
  assert (Hr : Forall2 same_layout carry0 carry0) by (apply R2_refl; intros; apply layout_refl).
  destruct (HU (order T rv) carry0 d ys Hr H3) as [U1 U2]. exists d, (map2 (@set_idx A) d fc), ys. split; [exact U1|]. split; [|split; [exact H4|split; [exact U2|exact H6]]].
  apply sets_arrays. apply exts_join with (1 := HE). clear -U2. induction U2; constructor; auto. apply layout_ext. assumption.
Qed.
Print Assumptions C29_scan_in_any_mode.
(* the bodies of C46 *)
Theorem C29_scan_programs : forall (c2r : bool) (th : Z) (j : @jaxpr R prim) (nconst ncarry T : nat) (reverse : bool) (args rs : list (arg R)),
  shape_only_prog j -> let body := jrun (prim_reg c2r) (name_reg c2r) c2r true th j false in
  eval_scan body nconst ncarry T reverse args = Some rs ->
  let carry0 := firstn ncarry (skipn nconst args) in let inp := skipn (nconst + ncarry) args in
  exists d d' ys, unrolled body ncarry (firstn nconst args) inp (if reverse then rev (seq 0 T) else seq 0 T) carry0 d ys /\ Forall2 same_arrays d d' /\
    rs = d' ++ map (@stack_arg R CRing_R) (cols (AX nd0) (if reverse then rev ys else ys)) /\ Forall2 same_layout carry0 d /\ (forall v, In v inp -> exists x, v = AX x).
Proof.
  intros c2r th j nc nk T rv args rs HS body H. apply (@C29_scan_in_any_mode R CRing_R body nc nk T rv args rs); [|exact H].
  intros l l' Hl. apply outcome_sa. apply jrun_layout; [apply name_slr|apply prog_sshape; exact HS|apply layouts_sa; exact Hl].
Qed.
Print Assumptions C29_scan_programs.

(* ---- C29: when a scan returns.  A scan in dense or sparse mode raises in its first iteration or not at all: it returns exactly when the scanned arrays do not depend on the
   inputs, one evaluation of the body, on the initial carry and the first slices, returns, and that one evaluation keeps kind, shapes and index tensor of every carry.
   This holds for every number of iterations, in both directions, for every body whose layout depends on layouts only (by C46: every program). ---- *)
Definition keeps_layout {A} (a b : arg A) : Prop :=
  match a, b with
  | AX x, AX y => sh x = sh y
  | AL u, AL v => sh (lx u) = sh (lx v) /\ sh (jdata (ljac u)) = sh (jdata (ljac v)) /\ sh (llap u) = sh (llap v) /\
      match jidx (ljac u), jidx (ljac v) with None, None => True | Some m, Some m' => sh m = sh m' /\ (forall p, inb p (sh m) -> at_ m p = at_ m' p) | _, _ => False end
  | _, _ => False
  end.
Lemma match_keeps {A} (a b : arg A) : carry_match a b = true <-> keeps_layout a b.
Proof.
  unfold carry_match. destruct a as [u|x], b as [v|y]; cbn; try (split; [discriminate|tauto]).
  2: { rewrite andb_true_r. split; [apply ixeqb_eq|intros ->; apply ixeqb_refl]. }
  split.
  - intros H. apply andb_true_iff in H. destruct H as [H H4]. apply andb_true_iff in H. destruct H as [H H3]. apply andb_true_iff in H. destruct H as [H1 H2].
    apply ixeqb_eq in H1, H2, H3. repeat (split; [assumption|]). unfold idx_match in H4. destruct (jidx (ljac u)) as [m|], (jidx (ljac v)) as [m'|]; try discriminate; auto.
    apply andb_true_iff in H4. destruct H4 as [H4 H5]. apply ixeqb_eq in H4. split; [exact H4|]. intros p Hp. rewrite forallb_forall in H5. apply Z.eqb_eq. apply H5. apply allix_spec. exact Hp.
  - intros (-> & -> & -> & H). rewrite !ixeqb_refl. cbn [andb]. unfold idx_match. destruct (jidx (ljac u)) as [m|], (jidx (ljac v)) as [m'|]; try contradiction; auto.
    destruct H as [H1 H2]. rewrite H1, ixeqb_refl. cbn [andb]. apply forallb_forall. intros p Hp. apply Z.eqb_eq. apply H2. rewrite H1. apply allix_spec. exact Hp.
Qed.
Lemma matches_keep {A} (l : list (arg A)) : forall m, Interp.all2 (@carry_match A) l m = true <-> Forall2 keeps_layout l m.
Proof.
  induction l as [|a l IH]; intros [|b m]; cbn; try (split; [discriminate|intros H; inversion H]); [split; auto|]. rewrite andb_true_iff, match_keeps, IH.
  split; [intros [H1 H2]; constructor; auto|intros H; inversion H; auto].
Qed.
Lemma keep_type {A} (a b c : arg A) : keeps_layout a b -> same_layout b c -> same_type a c = true.
Proof.
  destruct a as [u|x], b as [v|y], c as [w|z]; cbn; try tauto.
  - intros (-> & -> & -> & _) (E1 & E2 & _ & E3). rewrite E1, E2, E3, !ixeqb_refl. reflexivity.
  - intros -> ->. apply ixeqb_refl.
Qed.
Theorem C29_scan_returns_iff : forall (A : Type) (RA : CRing A) (body : list (arg A) -> option (list (arg A))) (nconst ncarry T : nat) (reverse : bool) (args : list (arg A)),
  (forall l l', Forall2 same_layout l l' -> same_outcome (Forall2 same_layout) (body l) (body l')) ->
  let carry0 := firstn ncarry (skipn nconst args) in let inp := skipn (nconst + ncarry) args in
  (exists rs, eval_scan body nconst ncarry T reverse args = Some rs) <->
  T <> 0 /\ (forall v, In v inp -> exists x, v = AX x) /\
  exists r, body (firstn nconst args ++ carry0 ++ map (fun x => AX (row (aval x) 0)) inp) = Some r /\ Forall2 keeps_layout carry0 (firstn ncarry r).
Proof.
  intros A RA body nc nk T rv args HB carry0 inp. split.
  - intros (rs & H). destruct (@scan_reset A RA body nc nk T rv args rs H) as (fc & fy & d & ys & H1 & H2 & H3 & H4 & H5 & H6 & H7). split; [exact H7|]. split; [exact H6|].
    unfold iterate in H1. change (s_carry nc nk args) with carry0 in *. change (s_inp nc nk args) with inp in *. change (s_cons nc args) with (firstn nc args) in *.
    destruct (body _) as [r|]; [|discriminate]. injection H1 as <- _. exists r. split; [reflexivity|]. apply matches_keep. exact H2.
  - intros (HT & HP & r & Hr & HK). unfold eval_scan. destruct (Nat.eqb_spec T 0) as [|_]; [contradiction|]. cbv zeta. fold carry0 inp.
    assert (E : forallb (fun v : arg A => negb (is_al v)) inp = true) by (apply forallb_forall; intros v Hv; destruct (HP v Hv) as (x & ->); reflexivity). rewrite E. cbn [negb].
    assert (HTy : Interp.all2 (@same_type A) carry0 carry0 = true).
    { clear. induction carry0 as [|a l IH]; [reflexivity|]. cbn. rewrite IH, andb_true_r. destruct a; cbn; rewrite !ixeqb_refl; reflexivity. }
    rewrite (set_same_all (same_idx_refl carry0)), Hr. apply matches_keep in HK. rewrite HK. cbn [negb]. apply matches_keep in HK.
    match goal with |- exists rs, match loop ?f ?ts ?c with _ => _ end = _ => assert (HL : forall us c, Interp.all2 (@same_type A) carry0 c = true -> exists c' ys, loop f us c = Some (c', ys)) end.
    { induction us as [|t us IH]; intros c Hc; cbn [loop]; [eauto|].
      assert (HO : same_outcome (Forall2 same_layout) (body (firstn nc args ++ carry0 ++ map (fun x => AX (row (aval x) 0)) inp)) (body (firstn nc args ++ map2 (@set_idx A) c carry0 ++ map (fun x => AX (row (aval x) t)) inp))).
      { apply HB. apply Forall2_app; [apply R2_refl; intros; apply layout_refl|]. apply Forall2_app; [apply types_layout; exact Hc|]. apply (R2_map (P := eq) _ _ _ (@R2_refl _ eq _ (fun x => eq_refl))). intros u v <-. reflexivity. }
      rewrite Hr in HO. destruct (body (firstn nc args ++ map2 _ c carry0 ++ _)) as [r'|]; [|contradiction]. cbn in HO. apply (F2_firstn nk) in HO.
      assert (Ht : Interp.all2 (@same_type A) carry0 (firstn nk r') = true).
      { clear -HK HO. revert HK HO. generalize (firstn nk r) (firstn nk r'). intros l. revert l. induction carry0 as [|a l0 IH]; intros l m HK HO; inversion HK; subst; inversion HO; subst; [reflexivity|]. cbn. apply andb_true_iff. split; [apply keep_type with (b := y); auto|eapply IH; eauto]. }
      rewrite Ht. destruct (IH _ Ht) as (c2 & ys2 & ->). eauto. }
    destruct (HL (order T rv) carry0 HTy) as (c' & ys & ->). eauto.
Qed.
Print Assumptions C29_scan_returns_iff.
(* the bodies of C46 *)
Theorem C29_scan_programs_return_iff : forall (c2r : bool) (th : Z) (j : @jaxpr R prim) (nconst ncarry T : nat) (reverse : bool) (args : list (arg R)),
  shape_only_prog j -> let body := jrun (prim_reg c2r) (name_reg c2r) c2r true th j false in
  let carry0 := firstn ncarry (skipn nconst args) in let inp := skipn (nconst + ncarry) args in
  (exists rs, eval_scan body nconst ncarry T reverse args = Some rs) <->
  T <> 0 /\ (forall v, In v inp -> exists x, v = AX x) /\
  exists r, body (firstn nconst args ++ carry0 ++ map (fun x => AX (row (aval x) 0)) inp) = Some r /\ Forall2 keeps_layout carry0 (firstn ncarry r).
Proof.
  intros c2r th j nc nk T rv args HS body. apply (@C29_scan_returns_iff R CRing_R body nc nk T rv args).
  intros l l' Hl. apply outcome_sa. apply jrun_layout; [apply name_slr|apply prog_sshape; exact HS|apply layouts_sa; exact Hl].
Qed.
Print Assumptions C29_scan_programs_return_iff.

(* ================= examples ================= *)
(* c := sin(c) * x, three times, from c = x = (2, 3), sparse *)
Definition scBody : @jaxpr R prim := Jaxpr [] [0; 1] [] [pe (PUn USin) [V 1] 2; pe PMul [V 2; V 0] 3] [V 3].
Definition scF : @jaxpr R prim := Jaxpr [] [0] [] [Eqn (KScan 1 1 3 false scBody) [V 0; V 0] [1]] [V 1].
Lemma scBody_shape : shape_only_prog scBody. Proof. refine (@kinds_shape _ _). unfold scBody. cbn [j_es]. prims. Qed.
Lemma scF_static : static_run scF true exX.
Proof.
  unfold static_run, scF, exX. cbn -[prim_op applies diff_at o_fwd shape_only_prog]. repeat match goal with |- _ /\ _ => split end; try fits; try (repeat constructor; fail).
  exact scBody_shape.
Qed.
Example C29_sparse_hypotheses_met : 0 < total (map (@sh R) exX) /\ smallj scF /\ static_run scF true exX /\ shape_only_prog scBody /\
  layout_of (forward_laplacian (prim_reg false) (name_reg false) false 1%Q scF (ones exX) (map (@AX R) exX)) = Some [(true, [1; 2], Some [0; 1]%Z)].
Proof.
  split; [vm_compute; repeat constructor|]. split; [unfold scF, scBody; small_prog|]. split; [exact scF_static|]. split; [exact scBody_shape|vm_compute; reflexivity].
Qed.
(* c := c * c[::-1], twice, from c = x = (2, 3): one iteration makes every element depend on both inputs, so in sparse mode the index tensor of the carry changes and
   the scan raises (interpreter.py:114-116); in dense mode it returns.  (The same threshold accepts the unrolled loop.) *)
Definition chFlip : iop := Iop [2] (fun p => (0, [1 - nth 0 p 0])).
Definition chBody : @jaxpr R prim := Jaxpr [] [0] [] [pe (PIndex chFlip true false) [V 0] 1; pe PMul [V 0; V 1] 2] [V 2].
Definition chF : @jaxpr R prim := Jaxpr [] [0] [] [Eqn (KScan 0 1 2 false chBody) [V 0] [1]] [V 1].
Definition chU : @jaxpr R prim := Jaxpr [] [0] [] [pe (PIndex chFlip true false) [V 0] 1; pe PMul [V 0; V 1] 2; pe (PIndex chFlip true false) [V 2] 3; pe PMul [V 2; V 3] 4] [V 4].
Lemma chF_typed : typed_run chF true exX.
Proof.
  unfold typed_run, chF, exX, chBody. cbn -[prim_op applies diff_at o_fwd shape_only_prog].
  repeat match goal with |- _ /\ _ => split end; try fits.
  all: try (intros p Hp; change (inb p [2]) in Hp; inversion Hp as [|a ? ? ? H1 H2]; subst; inversion H2; subst; destruct a as [|[|a]]; [..|lia]; (split; [vm_compute; lia|repeat constructor]; fail)).
  split; [refine (@kinds_shape _ _); cbn [j_es]; prims|].
  intros c t r Hc. cbn [firstn skipn map] in *. destruct c as [|[sy fy] [|? ?]]; try discriminate. injection Hc as Hc. intros H. vm_compute in Hc. subst sy.
  cbn -[prim_op o_fwd] in H. injection H as <-. reflexivity.
Qed.
Theorem C50_scan_carry_sparsity_raises_refuted : smallj chF /\ typed_run chF true exX /\ plain_run chF true exX = plain_run chU true exX /\ th_of 2%Q (map (@AX R) exX) = 2%Z /\
  issome (forward_laplacian (prim_reg false) (name_reg false) false 0%Q chF (ones exX) (map (@AX R) exX)) = true /\
  forward_laplacian (prim_reg false) (name_reg false) false 2%Q chF (ones exX) (map (@AX R) exX) = None /\
  issome (forward_laplacian (prim_reg false) (name_reg false) false 2%Q chU (ones exX) (map (@AX R) exX)) = true.
Proof.
  split; [unfold chF, chBody; small_prog|]. split; [exact chF_typed|]. split; [reflexivity|]. split; [vm_compute; reflexivity|]. split; [vm_compute; reflexivity|]. split; vm_compute; reflexivity.
Qed.
Print Assumptions C50_scan_carry_sparsity_raises_refuted.
