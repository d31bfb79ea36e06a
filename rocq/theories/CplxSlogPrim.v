(* CplxSlogPrim.v : slogdet of complex matrices as a primitive with two results (phase and log|det|) of a program with real inputs
   (wrapped_functions.py:194-259, custom_hessian.py:11-53).  Complex arrays are stored as in CplxEnc.v. *)
From Coq Require Import Reals Lra.
From Coquelicot Require Import Coquelicot.
From Verif Require Export CplxSlog.
Set Implicit Arguments.
Local Open Scope R_scope.
Ltac rings := change (@radd R CRing_R) with Rplus in *; change (@rmul R CRing_R) with Rmult in *; change (@r0 R CRing_R) with 0 in *; change (@r1 R CRing_R) with 1 in *; change (@ropp R CRing_R) with Ropp in *; change (@rsub R CRing_R) with Rminus in *.
Add Ring Cring_slogp : (@rth (R * R) CRing_CR).

(* log det with its complex derivatives (wrapped_functions.py:204-232) *)
Definition op_ldC : op (R * R) := op_logdet phase_det mat_invC.
(* the k-th component of i s *)
Definition cph (k : nat) (s : R * R) : R := match k with O => - snd s | _ => fst s end.
(* jnp.linalg.slogdet(x)[1] of the stored matrices, with its derivatives: the real parts of those of log det *)
Definition op_logabsC : op R := Op (fun xs => log_absdetC (join2 (nth 0 xs nd0))) (fun xs p a q => o_d (rop op_ldC) xs (p ++ [0%nat]) a q) (fun xs p a q b r => o_h (rop op_ldC) xs (p ++ [0%nat]) a q b r).
(* jnp.linalg.slogdet(x)[0] of the stored matrices, with its derivatives: the phase s = exp (i theta), where the derivatives of theta are the imaginary parts
   of those of log det *)
Definition op_phase : op R := Op (fun xs => split2 (phase_det (join2 (nth 0 xs nd0))))
  (fun xs p a q => let s := at_ (phase_det (join2 (nth 0 xs nd0))) (removelast p) in cph (last p 0%nat) s * o_d (rop op_ldC) xs (removelast p ++ [1%nat]) a q)
  (fun xs p a q b r => let s := at_ (phase_det (join2 (nth 0 xs nd0))) (removelast p) in let d a q := o_d (rop op_ldC) xs (removelast p ++ [1%nat]) a q in
     - comp (last p 0%nat) s * (d a q * d b r) + cph (last p 0%nat) s * o_h (rop op_ldC) xs (removelast p ++ [1%nat]) a q b r).
(* an array of complex square matrices *)
Definition cx_square (xs : list (nd R)) : Prop := exists x L m, xs = [x] /\ sh x = (L ++ [m; m]) ++ [2%nat].
(* specification: all matrices are invertible *)
Definition cx_nonsingular (xs : list (nd R)) : Prop := let z := join2 (nth 0 xs nd0) in forall p, inb p (lead z) -> det (msizeC z) (matC z p) <> (0, 0).
(* the registered rule on stored matrices (wrapped_functions.py:238-259) *)
Definition slogC_run (c2r : bool) (th : Z) (xs : list (arg R)) : option (list (arg R)) :=
  match xs with [v] => option_map (fun r : arg (R * R) * arg R => [enc (fst r); snd r]) (slogdet_complex c2r th (dec v)) | _ => None end.

Section Chain.
Context (x : nd R) (L : shape) (m : nat) (Hs : sh x = (L ++ [m; m]) ++ [2%nat]).
Let z := join2 x.
Lemma slz_cx : iscx x. Proof. exists (L ++ [m; m]). exact Hs. Qed.
Lemma slz_all : forall y, In y [x] -> iscx y. Proof. intros y [<-|[]]. apply slz_cx. Qed.
Lemma slz_sh : sh z = L ++ [m; m]. Proof. apply (@sh_join x _ Hs). Qed.
Lemma ldC_chain p (v : nat -> ix -> R * R) : inb p L -> chain1 op_ldC [z] p v = mtrace m (mmul m (minvC m (matC z p)) (fun i j => v 0%nat (p ++ [i; j]))).
Proof.
  intros Hp. transitivity (chain1 op_ldC [lx (Lapl z (Jac z None) z)] p v); [reflexivity|]. unfold op_ldC. rewrite (@logdet_chain _ CRing_CR phase_det mat_invC (Lapl z (Jac z None) z) L m p v slz_sh Hp). cbn [lx].
  unfold mtrace, mmul. apply sumn_ext. intros i _. apply sumn_ext. intros j _. rewrite (@invC_at z L m p i j slz_sh). reflexivity.
Qed.
Lemma ldC_quad p (v : nat -> ix -> R * R) : inb p L -> let B := mmul m (minvC m (matC z p)) (fun i j => v 0%nat (p ++ [i; j])) in quad op_ldC [z] p v v = ropp (mtrace m (mmul m B B)).
Proof.
  intros Hp B. set (a := Lapl z (Jac (Nd (1%nat :: sh z) (fun i => v 0%nat (tl i))) None) z).
  pose proof (@logdet_hspec _ CRing_CR phase_det mat_invC 1 (merge_of [true]) L m a p (merge_of_ok [true]) slz_sh Hp) as HX. unfold hspec in HX. rewrite !sumn1 in HX.
  assert (HJ : forall q, jent (ljac a) 0 q = v 0%nat q) by (intros q; reflexivity).
  assert (HQ : quad op_ldC [z] p v v = ropp (trBB (mat (mat_invC z) p) m (fun s t => v 0%nat (p ++ [s; t])))).
  { transitivity (quad (merged op_ldC (merge_of [true]) 1 []) (xs_of [a]) p (fun b q => jent (ljac (nth b [a] la0)) 0 q) (fun b q => jent (ljac (nth b [a] la0)) 0 q)); [|exact HX].
    symmetry. unfold quad. cbn [xs_of map length a lx]. rewrite !sumn1. cbn [nth ljac]. apply sumL_ext. intros q _. rewrite !sumn1. cbn [nth]. apply sumL_ext. intros r _. rewrite !HJ. reflexivity. }
  rewrite HQ. apply f_equal. unfold B. rewrite <- trBB_trace. unfold trBB. apply sumn_ext. intros i Hi. apply sumn_ext. intros c Hc. apply f_equal2; apply sumn_ext; intros j Hj; rewrite (@invC_at z L m p _ _ slz_sh); reflexivity.
Qed.
(* the chain-rule sums of the two results in terms of those of log det *)
Lemma logabs_chain p v : chain1 op_logabsC [x] p v = fst (chain1 op_ldC [z] p (pr v)).
Proof. transitivity (chain1 (rop op_ldC) [x] (p ++ [0%nat]) v); [reflexivity|]. rewrite (@rop_chain op_ldC [x] p 0 v slz_all). reflexivity. Qed.
Lemma logabs_quad p u v : quad op_logabsC [x] p u v = fst (quad op_ldC [z] p (pr u) (pr v)).
Proof. transitivity (quad (rop op_ldC) [x] (p ++ [0%nat]) u v); [reflexivity|]. rewrite (@rop_quad op_ldC [x] p 0 u v slz_all). reflexivity. Qed.
Lemma phase_chain p k v : chain1 op_phase [x] (p ++ [k]) v = cph k (at_ (phase_det z) p) * snd (chain1 op_ldC [z] p (pr v)).
Proof.
  transitivity (cph k (at_ (phase_det z) p) * chain1 (rop op_ldC) [x] (p ++ [1%nat]) v); [|rewrite (@rop_chain op_ldC [x] p 1 v slz_all); reflexivity].
  unfold chain1. cbn [length]. rewrite !sumn1. cbn [nth]. rewrite <- (@sumL_scale R CRing_R). apply sumL_ext. intros q _. cbn [op_phase o_d nth]. rewrite rl, ll. fold z. rings. ring.
Qed.
Lemma phase_quad p k v : quad op_phase [x] (p ++ [k]) v v = - comp k (at_ (phase_det z) p) * (snd (chain1 op_ldC [z] p (pr v)) * snd (chain1 op_ldC [z] p (pr v))) + cph k (at_ (phase_det z) p) * snd (quad op_ldC [z] p (pr v) (pr v)).
Proof.
  set (s := at_ (phase_det z) p). set (d q := o_d (rop op_ldC) [x] (p ++ [1%nat]) 0 q). set (h q r := o_h (rop op_ldC) [x] (p ++ [1%nat]) 0 q 0 r).
  assert (E1 : snd (chain1 op_ldC [z] p (pr v)) = sumL (allix (sh x)) (fun q => d q * v 0%nat q)).
  { transitivity (chain1 (rop op_ldC) [x] (p ++ [1%nat]) v); [rewrite (@rop_chain op_ldC [x] p 1 v slz_all); reflexivity|]. unfold chain1. cbn [length]. rewrite sumn1. reflexivity. }
  assert (E2 : snd (quad op_ldC [z] p (pr v) (pr v)) = sumL (allix (sh x)) (fun q => sumL (allix (sh x)) (fun r => h q r * (v 0%nat q * v 0%nat r)))).
  { transitivity (quad (rop op_ldC) [x] (p ++ [1%nat]) v v); [rewrite (@rop_quad op_ldC [x] p 1 v v slz_all); reflexivity|]. unfold quad. cbn [length]. rewrite sumn1. apply sumL_ext. intros q _. rewrite sumn1. reflexivity. }
  rewrite E1, E2. unfold quad. cbn [length]. rewrite sumn1. cbn [nth].
  transitivity (sumL (allix (sh x)) (fun q => - comp k s * (d q * v 0%nat q * sumL (allix (sh x)) (fun r => d r * v 0%nat r)) + cph k s * sumL (allix (sh x)) (fun r => h q r * (v 0%nat q * v 0%nat r)))).
  - apply sumL_ext. intros q _. rewrite sumn1. cbn [nth].
    transitivity (sumL (allix (sh x)) (fun r => radd (rmul (- comp k s * (d q * v 0%nat q)) (d r * v 0%nat r)) (rmul (cph k s) (h q r * (v 0%nat q * v 0%nat r))))).
    + apply sumL_ext. intros r _. cbn [op_phase o_h nth]. rewrite rl, ll. fold z s. fold (d q) (d r) (h q r). rings. ring.
    + rewrite (@sumL_add R CRing_R), !(@sumL_scale R CRing_R). rings. ring.
  - transitivity (sumL (allix (sh x)) (fun q => radd (rmul (- comp k s * sumL (allix (sh x)) (fun r => d r * v 0%nat r)) (d q * v 0%nat q)) (rmul (cph k s) (sumL (allix (sh x)) (fun r => h q r * (v 0%nat q * v 0%nat r)))))).
    + apply sumL_ext. intros q _. rings. ring.
    + rewrite (@sumL_add R CRing_R), !(@sumL_scale R CRing_R). rings. ring.
Qed.
End Chain.

Lemma split_at (y : nd (R * R)) p k : at_ (split2 y) (p ++ [k]) = comp k (at_ y p).
Proof. cbn [split2 at_]. rewrite rl, ll. reflexivity. Qed.
(* ---- the derivatives are those of the phase and of log|det| ---- *)
Section Curve.
Context (x : nd R) (L : shape) (m : nat) (D H : nat -> ix -> R) (W : R -> list (nd R)).
Hypothesis Hs : sh x = (L ++ [m; m]) ++ [2%nat].
Hypothesis HW : curves [x] D H W.
Hypothesis HR : cx_nonsingular [x].
Let z := join2 x.
Let w (t : R) := join2 (nth 0 (W t) nd0).
Lemma cw_jets : jets z (pr D 0) (pr H 0) w.
Proof. destruct HW as [_ H2]. exact (join_jets (slz_cx _ _ _ Hs) (H2 0%nat ltac:(cbn; lia))). Qed.
Lemma cw_sh : near (fun t => sh (w t) = L ++ [m; m]).
Proof. destruct cw_jets as [J _]. revert J. apply near_imp. intros t ->. apply (slz_sh _ _ _ Hs). Qed.
Lemma cw_nz p : inb p L -> det m (matC z p) <> (0, 0).
Proof. intros Hp. pose proof HR as K. unfold cx_nonsingular in K. cbv zeta in K. specialize (K p). cbn [nth] in K. fold z in K. rewrite (@lead_of _ z L m (slz_sh _ _ _ Hs)), (@msizeC_of z L m (slz_sh _ _ _ Hs)) in K. auto. Qed.
Lemma cw_det p : inb p L -> let q := chain1 op_ldC [z] p (pr D) in let k := radd (chain1 op_ldC [z] p (pr H)) (quad op_ldC [z] p (pr D) (pr D)) in
  jetC (fun t => det m (matC (w t) p)) (det m (matC z p)) (rmul (det m (matC z p)) q) (rmul (det m (matC z p)) (radd k (rmul q q))).
Proof.
  intros Hp q k. assert (Eq : q = mtrace m (mmul m (minvC m (matC z p)) (fun i j => pr D 0%nat (p ++ [i; j])))) by apply (@ldC_chain x L m Hs p (pr D) Hp).
  assert (Ek : k = rsub (mtrace m (mmul m (minvC m (matC z p)) (fun i j => pr H 0%nat (p ++ [i; j])))) (mtrace m (mmul m (mmul m (minvC m (matC z p)) (fun i j => pr D 0%nat (p ++ [i; j]))) (mmul m (minvC m (matC z p)) (fun i j => pr D 0%nat (p ++ [i; j])))))).
  { unfold k, z. rewrite (@ldC_chain x L m Hs p (pr H) Hp), (@ldC_quad x L m Hs p (pr D) Hp). ring. }
  rewrite Ek, Eq. apply (@detC_jets m (fun t => matC (w t) p)); [|apply cw_nz; exact Hp]. intros i j Hi Hj. pose proof (slz_sh _ _ _ Hs) as Ez. fold z in Ez. rewrite (@matC_in z L m p i j Ez Hp Hi Hj).
  apply jetC_ext with (phi := fun t => at_ (w t) (p ++ [i; j])); [generalize cw_sh; apply near_imp; intros t Et; rewrite (@matC_in (w t) L m p i j Et Hp Hi Hj); reflexivity|]. destruct cw_jets as [_ J]. apply J. rewrite Ez. apply inb2; assumption.
Qed.
Lemma logabs_jets : jets (o_fwd op_logabsC [x]) (fun p => chain1 op_logabsC [x] p D) (fun p => (chain1 op_logabsC [x] p H + quad op_logabsC [x] p D D)%R) (fun t => o_fwd op_logabsC (W t)).
Proof.
  pose proof (slz_sh _ _ _ Hs) as Ez. fold z in Ez. assert (EL : forall y, sh y = L ++ [m; m] -> @lead (R * R) y = L) by (intros y Hy; apply (@lead_of _ y L m Hy)). split.
  - generalize cw_sh. apply near_imp. intros t Ht. cbn [op_logabsC o_fwd log_absdetC sh nth]. fold (w t). fold z. rewrite (EL _ Ht), (EL _ Ez). reflexivity.
  - cbn [op_logabsC o_fwd sh nth log_absdetC at_]. fold z. rewrite (EL _ Ez). intros p Hp. rewrite (@msizeC_of _ L m Ez).
    apply jet2_ext with (phi := fun t => ln (cmod (det m (matC (w t) p)))); [generalize cw_sh; apply near_imp; intros t Ht; fold (w t); rewrite (@msizeC_of _ L m Ht); reflexivity|].
    eapply jet2_eq; [apply (@lnmod_jet _ _ _ _ (cw_det Hp) (cw_nz Hp))|reflexivity| |].
    + symmetry. apply (logabs_chain _ _ _ Hs).
    + rewrite (logabs_chain _ _ _ Hs), (logabs_quad _ _ _ Hs). reflexivity.
Qed.
Lemma phase_jets : jets (o_fwd op_phase [x]) (fun p => chain1 op_phase [x] p D) (fun p => (chain1 op_phase [x] p H + quad op_phase [x] p D D)%R) (fun t => o_fwd op_phase (W t)).
Proof.
  pose proof (slz_sh _ _ _ Hs) as Ez. fold z in Ez. assert (EL : forall y, sh y = L ++ [m; m] -> @lead (R * R) y = L) by (intros y Hy; apply (@lead_of _ y L m Hy)). split.
  - generalize cw_sh. apply near_imp. intros t Ht. cbn [op_phase o_fwd phase_det split2 sh nth]. fold (w t). fold z. rewrite (EL _ Ht), (EL _ Ez). reflexivity.
  - cbn [op_phase o_fwd nth]. fold z. cbn [split2 sh phase_det]. rewrite (EL _ Ez). intros q Hq. destruct (inb_snoc_inv _ Hq) as (p & k & -> & Hp & Hk).
    rewrite (phase_chain _ _ _ Hs), (phase_chain _ _ _ Hs), (phase_quad _ _ _ Hs). rewrite split_at. fold z. assert (ES : at_ (phase_det z) p = csgn (det m (matC z p))) by (cbn [phase_det at_]; rewrite (@msizeC_of _ L m Ez); reflexivity). rewrite ES.
    apply jet2_ext with (phi := fun t => comp k (csgn (det m (matC (w t) p)))); [generalize cw_sh; apply near_imp; intros t Ht; rewrite split_at; fold (w t); cbn [phase_det at_]; rewrite (@msizeC_of _ L m Ht); reflexivity|].
    destruct (@csgn_jet _ _ _ _ (cw_det Hp) (cw_nz Hp)) as [J1 J2]. set (s := csgn (det m (matC z p))) in *. destruct k as [|[|k]]; [| |lia]; cbn [comp cph].
    + eapply jet2_eq; [exact J1|reflexivity|..]; cc; ring.
    + eapply jet2_eq; [exact J2|reflexivity|..]; cc; ring.
Qed.
End Curve.
Theorem logabs_smooth xs : cx_square xs -> cx_nonsingular xs -> smooth op_logabsC xs.
Proof. intros (x & L & m & -> & Hs) HR D H W HW. exact (@logabs_jets x L m D H W Hs HW HR). Qed.
Theorem phase_smooth xs : cx_square xs -> cx_nonsingular xs -> smooth op_phase xs.
Proof. intros (x & L & m & -> & Hs) HR D H W HW. exact (@phase_jets x L m D H W Hs HW HR). Qed.

Lemma detC_same (x y : nd (R * R)) p : eqa x y -> msizeC x = msizeC y /\ lead x = lead y /\ det (msizeC x) (matC x p) = det (msizeC y) (matC y p).
Proof.
  intros [H1 H2]. assert (E : msizeC x = msizeC y) by (unfold msizeC, ndim; rewrite H1; reflexivity). split; [exact E|]. split; [unfold lead, ndim; rewrite H1; reflexivity|]. rewrite E. apply det_ext. intros i j _ _. unfold matC, mat, tidyC. cbn [at_].
  rewrite <- H1. destruct (inbb _ (sh x)) eqn:E1; [apply H2; apply inb_dec; exact E1|reflexivity].
Qed.
Lemma slogC_eqa x y : iscx x -> eqa x y -> eqa (o_fwd op_phase [x]) (o_fwd op_phase [y]) /\ eqa (o_fwd op_logabsC [x]) (o_fwd op_logabsC [y]).
Proof.
  intros HX HE. pose proof (join_eqa HX HE) as HJ. cbn [op_phase op_logabsC o_fwd nth]. split.
  - apply split_eqa. split; [cbn [phase_det sh]; apply (detC_same [] HJ)|]. intros p _. cbn [phase_det at_]. destruct (detC_same p HJ) as (_ & _ & ->). reflexivity.
  - split; [cbn [log_absdetC sh]; apply (detC_same [] HJ)|]. intros p _. cbn [log_absdetC at_]. destruct (detC_same p HJ) as (_ & _ & ->). reflexivity.
Qed.
Lemma slogC_ext xs : cx_square xs -> fwd_ext op_phase xs /\ fwd_ext op_logabsC xs.
Proof.
  intros (x & L & m & -> & Hs). assert (HX : iscx x) by (exists (L ++ [m; m]); exact Hs). split; intros ys HF; inversion HF as [|u y l1 l2 HE HF2 E1 E2]; subst; inversion HF2; subst; apply (slogC_eqa HX HE).
Qed.

(* ---- the registered rule is exact ---- *)
Section Exact.
Context (n : nat) (c2r : bool) (th : Z) (a : lapl R) (L : shape) (m : nat).
Hypothesis Hn : (0 < n)%nat.
Hypothesis HV : vok n (AL a).
Hypothesis Hs : sh (lx a) = (L ++ [m; m]) ++ [2%nat].
Hypothesis HP : paired (AL a).
Let x := lx a.
Let z := join2 x.
Let V (i b : nat) (q : ix) : R := jent (ljac (nth b [a] la0)) i q.
Let U (b : nat) (q : ix) : R := at_ (llap (nth b [a] la0)) q.
(* what the rule computes for log det *)
Lemma ldC_out b : wrap_fl (slogdet_rule phase_det mat_invC) c2r 0%Z [AL (join_la a)] = Some (AL b) ->
  lx b = phase_det z /\ jwf n L (ljac b) /\ jidx (ljac b) = None /\ sh (llap b) = L /\ (forall i p, inb p L -> jent (ljac b) i p = chain1 op_ldC [z] p (pr (V i))) /\
  (forall p, inb p L -> at_ (llap b) p = radd (chain1 op_ldC [z] p (pr U)) (sumn n (fun i => quad op_ldC [z] p (pr (V i)) (pr (V i))))).
Proof.
  intros H. assert (HX : iscx (lx a)) by (exists (L ++ [m; m]); exact Hs). pose proof (@dec_vok n (AL a) HV HX HP) as HVd. cbn [dec] in HVd. pose proof (slz_sh _ _ _ Hs) as Ez. fold x z in Ez.
  assert (HW : slogdet_wrapper phase_det phase_det mat_invC c2r th (AL (join_la a)) = Some (AX (phase_det (lx (join_la a))), AL b)) by (unfold slogdet_wrapper; rewrite H; reflexivity).
  destruct (@slogdet_sound _ CRing_CR phase_det phase_det mat_invC n c2r th (join_la a) L m _ Hn HVd Ez invC_ext1 (fun y Hy => Hy) HW) as (_ & b' & Eb & E3 & E4). cbn [snd] in Eb. assert (E : b = b') by congruence. subst b'. clear Eb.
  destruct E3 as (O1 & [O2 O2'] & O3 & O4). cbn [map aval op_logdet o_fwd nth] in O1, O2, O2', O3, O4. change (lx (join_la a)) with z in *. assert (EL : lead z = L) by apply (@lead_of _ z L m Ez).
  split; [exact O1|]. rewrite O1 in O2, O2'. cbn [phase_det sh] in O2, O2', O3, O4. rewrite EL in O2, O2', O3, O4. split; [exact O2|]. split; [apply (@slog_dense n c2r (join_la a) L m b Hn HVd Ez H)|]. split; [exact O2'|].
  assert (EA : forall i b q, (b < 1)%nat -> jent (ljac (nth b [join_la a] la0)) i q = pr (V i) b q).
  { intros i [|c] q Hc; [|lia]. cbn [nth]. exact (@paired_jent n (AL a) i q HV HX HP). }
  split.
  - intros i p Hp. rewrite (O3 i p Hp). unfold dspec. cbn [xs_of map lift lx]. apply chain1_ext. intros c q Hc _. apply EA. exact Hc.
  - intros p Hp. rewrite (O4 p Hp). unfold lspec, hspec. cbn [xs_of map lift lx]. apply f_equal2.
    + apply chain1_ext. intros [|c] q Hc _; [reflexivity|cbn in Hc; lia].
    + apply sumn_ext. intros i _. apply quad_ext; intros c q Hc _; apply EA; exact Hc.
Qed.
Theorem slogC_ok rs : slogC_run c2r th [AL a] = Some rs -> exists s b, rs = [AL s; AL b] /\ (arg_ok n op_phase [AL a] s /\ jrow1 (ljac s)) /\ (arg_ok n op_logabsC [AL a] b /\ jrow1 (ljac b)) /\ jidx (ljac s) = None /\ jidx (ljac b) = None.
Proof.
  intros H. unfold slogC_run, slogdet_complex in H. cbn [dec] in H. destruct (wrap_fl (slogdet_rule phase_det mat_invC) c2r 0 [AL (join_la a)]) as [[b|y]|] eqn:E; cbn [bind option_map] in H; try discriminate. cbn [fst snd enc aval] in H.
  destruct (ldC_out E) as (B1 & B2 & B3 & B4 & B5 & B6). pose proof (slz_sh _ _ _ Hs) as Ez. fold x z in Ez. assert (EL : lead z = L) by apply (@lead_of _ z L m Ez).
  exists (split_la (phase_la b)), (Lapl (log_absdetC (lx (join_la a))) (jmap re (ljac b)) (ndmap re (llap b))). split; [congruence|]. clear H. change (lx (join_la a)) with z. destruct B2 as (kr & K1 & K2). pose proof K2 as K2'. rewrite B3 in K2'.
  assert (HPW : awf n (phase_la b)). { split; [cbn [phase_la lx]; rewrite B1; cbn [phase_det sh]; rewrite EL; exists kr; split; [exact K1|cbn [phase_la ljac jidx]; rewrite B3; exact K2']|reflexivity]. }
  assert (HPR : jrow1 (ljac (phase_la b))) by (intros X; unfold weak in X; cbn [phase_la ljac jidx] in X; rewrite B3 in X; discriminate X).
  destruct (split_awf HPW HPR) as (S1 & S2 & _). assert (ES : sh (o_fwd op_phase [x]) = L ++ [2%nat]) by (cbn [op_phase o_fwd split2 sh phase_det nth]; fold z; rewrite EL; reflexivity).
  split; [|split; [|split; [cbn [split_la ljac split_jac jidx phase_la]; rewrite B3; reflexivity|cbn [ljac jmap jidx]; rewrite B3; reflexivity]]].
  - split; [|exact S2]. unfold arg_ok. cbn [map aval]. fold x. rewrite ES. split; [cbn [split_la lx phase_la]; rewrite B1; reflexivity|]. split; [exact S1|].
    assert (EP : forall p, at_ (lx b) p = at_ (phase_det z) p) by (intros p; rewrite B1; reflexivity). split.
    + intros i q Hq. destruct (inb_snoc_inv _ Hq) as (p & k & -> & Hp & Hk). unfold dspec. cbn [xs_of map lift lx]. fold x. change (fun b q => jent (ljac (nth b [a] la0)) i q) with (V i).
      rewrite (phase_chain _ _ _ Hs). fold x z. rewrite <- (B5 i p Hp). destruct HPW as [HJ _]. cbn [split_la ljac]. rewrite (@split_jent n _ _ i p k HJ).
      assert (EJ : jent (ljac (phase_la b)) i p = rmul (rmul (0, 1) (at_ (phase_det z) p)) (snd (jent (ljac b) i p), 0)).
      { unfold jent. cbn [phase_la ljac jidx jdata]. rewrite B3. unfold rows. cbn [sh at_ hd tl]. rewrite K1. cbn [hd]. destruct (Nat.ltb_spec i kr); [unfold sign_jac; rewrite EP; reflexivity|]. cc. f_equal; ring. }
      rewrite EJ. destruct k as [|[|k]]; [| |lia]; cbn [comp cph]; cc; ring.
    + intros q Hq. destruct (inb_snoc_inv _ Hq) as (p & k & -> & Hp & Hk). unfold lspec, hspec. cbn [xs_of map lift lx]. fold x.
      change (fun b q => at_ (llap (nth b [a] la0)) q) with U. rewrite (phase_chain _ _ _ Hs).
      transitivity (radd (cph k (at_ (phase_det z) p) * snd (chain1 op_ldC [z] p (pr U))) (sumn n (fun i => radd (rmul (- comp k (at_ (phase_det z) p)) (rmul (snd (jent (ljac b) i p)) (snd (jent (ljac b) i p)))) (rmul (cph k (at_ (phase_det z) p)) (snd (quad op_ldC [z] p (pr (V i)) (pr (V i)))))))).
      2:{ apply f_equal2; [reflexivity|]. apply (@sumn_ext R CRing_R). intros i _. symmetry. change (fun b q => jent (ljac (nth b [a] la0)) i q) with (V i). rewrite (phase_quad _ _ _ Hs). fold x z. rewrite <- (B5 i p Hp). reflexivity. }
      rewrite (@nadd R CRing_R), !(@nscale R CRing_R). cbn [split_la llap]. rewrite split_at. cbn [phase_la llap at_]. rewrite EP. unfold sign_lapl.
      assert (ED : sumn (rows (jdata (ljac b))) (fun r => rmul (im (at_ (jdata (ljac b)) (r :: p))) (im (at_ (jdata (ljac b)) (r :: p)))) = sumn n (fun i => rmul (im (jent (ljac b) i p)) (im (jent (ljac b) i p)))) by (apply (@dense_rows n L Hn b p (ex_intro _ kr (conj K1 K2)) B3 (fun z => (snd z * snd z)%R)); cbn; ring).
      rewrite ED. rewrite (B6 p Hp). rewrite sumn_pair. unfold im, to_complex, cI. generalize (chain1 op_ldC [z] p (pr U)) (sumn n (fun i => snd (quad op_ldC [z] p (pr (V i)) (pr (V i))))) (sumn n (fun i => fst (quad op_ldC [z] p (pr (V i)) (pr (V i))))) (sumn n (fun i => rmul (snd (jent (ljac b) i p)) (snd (jent (ljac b) i p)))) (at_ (phase_det z) p).
      intros [c1 c2] q2 q1 g [s1 s2]. destruct k as [|[|k]]; [| |lia]; cbn [comp cph fst snd]; cc; ring.
  - split; [|intros X; unfold weak in X; cbn [ljac jmap jidx] in X; rewrite B3 in X; discriminate X]. unfold arg_ok. cbn [map aval]. fold x. cbn [op_logabsC o_fwd nth]. fold z. cbn [log_absdetC sh]. rewrite EL. split; [reflexivity|].
    split; [split; [|cbn [llap lx ndmap sh log_absdetC]; rewrite EL; exact B4]|]; [cbn [lx log_absdetC sh]; rewrite EL; exists kr; split; [exact K1|cbn [ljac jmap jidx]; rewrite B3; exact K2']|]. split.
    + intros i p Hp. cbn [ljac]. transitivity (re (jent (ljac b) i p)); [exact (@jent_map _ _ _ CRing_R re re_additive (ljac b) i p)|]. rewrite (B5 i p Hp). unfold dspec. cbn [xs_of map lift lx]. fold x. change (fun b q => jent (ljac (nth b [a] la0)) i q) with (V i). symmetry. apply (logabs_chain _ _ _ Hs).
    + intros p Hp. cbn [llap ndmap at_]. rewrite (B6 p Hp). unfold lspec, hspec. cbn [xs_of map lift lx]. fold x. change (fun b q => at_ (llap (nth b [a] la0)) q) with U.
      rewrite (logabs_chain _ _ _ Hs). fold x z. rewrite sumn_pair. change (re (radd (chain1 op_ldC [z] p (pr U)) (?u, ?v))) with (radd (fst (chain1 op_ldC [z] p (pr U))) u). apply f_equal2; [reflexivity|].
      apply (@sumn_ext R CRing_R). intros i _. symmetry. apply (logabs_quad _ _ _ Hs).
Qed.
End Exact.
