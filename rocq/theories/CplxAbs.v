(* CplxAbs.v : the modulus of a complex array (wrapped_functions.py:262-289, custom_hessian.py:56-78) inside a program with real inputs. *)
From Coq Require Import Reals Lra.
From Coquelicot Require Import Coquelicot.
From Verif Require Export CplxPrims.
Set Implicit Arguments.
Local Open Scope nat_scope.
Add Ring Cring_abs : (@rth (R * R) CRing_CR).

(* |z| *)
Definition cmod (z : R * R) : R := sqrt (n2 z).
(* jnp.abs (wrapped_functions.py:263-264), with zero imaginary part *)
Definition ab_f (v : list (R * R)) : R * R := (cmod (nth 0 v r0), 0)%R.
(* the pullback of 1 by complex_abs_jvp (wrapped_functions.py:267-277) in jax's convention: the conjugate of z/|z|.  The real part of its product with a
   tangent t is (re z re t + im z im t)/|z|, the tangent that complex_abs_jvp returns *)
Definition ab_1 (v : list (R * R)) (a : nat) : R * R := match a with O => let z := nth 0 v r0 in (fst z / cmod z, - snd z / cmod z)%R | _ => r0 end.
(* not used: the rule is custom *)
Definition ab_2 (v : list (R * R)) (a b : nat) : R * R := r0.
Definition ab_op : op (R * R) := ew_op ab_f ab_1 ab_2.
(* the real parts of an argument: astype(x.dtype) drops the imaginary parts, wrapper.py:126-136 *)
Definition re_arg (v : arg (R * R)) : arg R := match v with AL a => AL (lmap re a) | AX x => AX (ndmap re x) end.
(* wrapped_functions.py:280-289 abs_wrapper for complex arrays *)
Definition complex_abs (c2r : bool) (th : Z) (v : arg (R * R)) : option (arg R) :=
  option_map re_arg (wrap_fl (ew_rule ab_f ab_1 ab_2 0%Z (Some (cabs_rule (fun z => / cmod z)%R))) c2r th [v]).
(* the same on the stored real and imaginary parts *)
Definition abs_run (c2r : bool) (th : Z) (xs : list (arg R)) : option (arg R) := match xs with [v] => complex_abs c2r th (dec v) | _ => None end.
(* the modulus as a function of the stored real and imaginary parts, with its first and second derivatives *)
Definition abs_op : op R := Op (fun xs => ndmap re (o_fwd ab_op (map join2 xs)))
  (fun xs p a q => match a with O => let z := at_ (join2 (nth 0 xs nd0)) p in if ixeqb p (removelast q) then (comp (last q 0%nat) z / cmod z)%R else 0%R | _ => 0%R end)
  (fun xs p a q b r => match a, b with
    | O, O => let z := at_ (join2 (nth 0 xs nd0)) p in
        if ixeqb p (removelast q) && ixeqb p (removelast r) then (((if Nat.eqb (last q 0%nat) (last r 0%nat) then 1 else 0) - comp (last q 0%nat) z * comp (last r 0%nat) z / n2 z) / cmod z)%R else 0%R
    | _, _ => 0%R end).

Lemma ew_one_shape {A} (x : nd A) : ew_shape [x] = sh x.
Proof. unfold ew_shape, bshapes. cbn [map fold_left]. rewrite (@bshape2_bto_l [] (sh x)); [reflexivity|apply bto_nil]. Qed.
Lemma cmod_pos z : z <> (0, 0)%R -> (0 < cmod z)%R.
Proof. intros H. apply sqrt_lt_R0. apply n2_pos. exact H. Qed.
Lemma cmod_sq z : (cmod z * cmod z = n2 z)%R.
Proof. unfold cmod. apply sqrt_sqrt. unfold n2. nra. Qed.
Lemma ab_vals x p : inb p (sh x) -> nth 0 (ew_vals [x] p) (@r0 _ CRing_CR) = at_ x p.
Proof. intros Hp. unfold ew_vals. cbn [map nth]. rewrite bproj_same by exact Hp. reflexivity. Qed.
Lemma abs_shape x : sh (o_fwd abs_op [x]) = sh (join2 x).
Proof. cbn [abs_op o_fwd map ndmap sh ab_op ew_op]. apply ew_one_shape. Qed.
Lemma abs_at x p : inb p (sh (join2 x)) -> at_ (o_fwd abs_op [x]) p = cmod (at_ (join2 x) p).
Proof. intros Hp. cbn [abs_op o_fwd map ndmap at_ ab_op ew_op]. unfold re, ab_f. cbn [fst]. rewrite ab_vals by exact Hp. reflexivity. Qed.
Lemma abs_chain x p v : iscx x -> inb p (sh (join2 x)) -> let z := at_ (join2 x) p in chain1 abs_op [x] p v = ((fst z * v 0%nat (p ++ [0%nat]) + snd z * v 0%nat (p ++ [1%nat])) * / cmod z)%R.
Proof.
  intros HX Hp z. unfold chain1, sumn. cbn [length seq sumL nth]. rewrite (join_sh HX) at 1. rewrite sum2.
  rewrite (@sumL_single R CRing_R _ _ p).
  - cbn [abs_op o_d nth]. rewrite !rl, !ll. rewrite (proj2 (ixeqb_eq _ _) eq_refl). fold z. cbn [comp radd rmul r0 CRing_R]. unfold Rdiv. ring.
  - apply allix_NoDup.
  - apply allix_spec. exact Hp.
  - intros q _ Hne. cbn [abs_op o_d nth]. rewrite !rl. rewrite ixeqb_neq by auto. cbn. ring.
Qed.
Lemma abs_quad x p v : iscx x -> inb p (sh (join2 x)) -> let z := at_ (join2 x) p in z <> (0, 0)%R -> quad abs_op [x] p v v = abs_dd (/ cmod z)%R z (v 0%nat (p ++ [0%nat]), v 0%nat (p ++ [1%nat])).
Proof.
  intros HX Hp z Hz. pose proof (cmod_pos Hz) as HP. pose proof (cmod_sq z) as HQ.
  unfold quad, sumn. cbn [length seq sumL nth]. rewrite (join_sh HX). rewrite sum2.
  rewrite (@sumL_single R CRing_R _ _ p).
  - rewrite !sum2.
    assert (E : forall k, k < 2 -> sumL (allix (sh (join2 x))) (fun r => (rmul (o_h abs_op [x] p 0 (p ++ [k]) 0 (r ++ [0%nat])) (rmul (v 0%nat (p ++ [k])) (v 0%nat (r ++ [0%nat]))) +
       rmul (o_h abs_op [x] p 0 (p ++ [k]) 0 (r ++ [1%nat])) (rmul (v 0%nat (p ++ [k])) (v 0%nat (r ++ [1%nat]))))%R) =
       ((((if Nat.eqb k 0 then 1 else 0) - comp k z * fst z / n2 z) / cmod z) * (v 0%nat (p ++ [k]) * v 0%nat (p ++ [0%nat])) + (((if Nat.eqb k 1 then 1 else 0) - comp k z * snd z / n2 z) / cmod z) * (v 0%nat (p ++ [k]) * v 0%nat (p ++ [1%nat])))%R).
    { intros k Hk. rewrite (@sumL_single R CRing_R _ _ p).
      - cbn [abs_op o_h nth]. rewrite !rl, !ll. rewrite (proj2 (ixeqb_eq _ _) eq_refl). fold z. cbn [andb comp]. reflexivity.
      - apply allix_NoDup.
      - apply allix_spec. exact Hp.
      - intros q _ Hne. cbn [abs_op o_h nth]. rewrite !rl. rewrite (@ixeqb_neq p q) by auto. rewrite andb_false_r. cbn. ring. }
    rewrite (E 0) by lia. rewrite (E 1) by lia. cbn [Nat.eqb comp]. unfold abs_dd. cbn [fst snd radd rmul rsub r0 CRing_R]. rewrite <- HQ. assert (cmod z <> 0%R) by lra.
    assert (HX2 : (fst z * fst z + snd z * snd z = cmod z * cmod z)%R) by (rewrite HQ; reflexivity). field_simplify; [|assumption|assumption].  reflexivity.
  - apply allix_NoDup.
  - apply allix_spec. exact Hp.
  - intros q _ Hne. rewrite !(@sumL_zero R CRing_R); [cbn; ring| |]; intros r _; cbn [abs_op o_h nth]; rewrite !rl; rewrite (@ixeqb_neq p q) by auto; cbn; ring.
Qed.
Lemma abs_jet a b (x y u v hx hy : R) : jet2 a x u hx -> jet2 b y v hy -> (x, y) <> (0, 0)%R ->
  jet2 (fun t => cmod (a t, b t)) (cmod (x, y)) ((x * u + y * v) * / cmod (x, y))%R (abs_dd (/ cmod (x, y)) (x, y) (u, v) + (x * hx + y * hy) * / cmod (x, y))%R.
Proof.
  intros Ha Hb Hz. pose proof (jet2_plus (jet2_mult Ha Ha) (jet2_mult Hb Hb)) as HJ. pose proof (n2_pos Hz) as HN. pose proof (cmod_pos Hz) as HP. unfold n2 in HN. cbn [fst snd] in HN.
  pose proof (jet2_comp HJ (un_twice USqrt _ HN)) as HX. cbn [un_f un_1 un_2] in HX. unfold cmod, n2 in *. cbn [fst snd] in *. eapply jet2_eq; [exact HX|reflexivity|..].
  - field. lra.
  - unfold abs_dd. cbn [fst snd radd rmul rsub CRing_R]. assert (HS : (x * x + y * y = sqrt (x * x + y * y) * sqrt (x * x + y * y))%R) by (rewrite sqrt_sqrt; lra).
    set (s := sqrt (x * x + y * y)) in *. rewrite !HS. field. lra.
Qed.
Lemma abs_smooth x : iscx x -> (forall p, inb p (sh (join2 x)) -> at_ (join2 x) p <> (0, 0)%R) -> smooth abs_op [x].
Proof.
  intros HX HZ D H W [C1 C2]. specialize (C2 0 ltac:(cbn; lia)). cbn [nth] in C2. pose proof (join_sh HX) as EX. destruct C2 as [J1 J2]. split.
  - generalize (near_and C1 J1). apply near_imp. intros t [E1 E2]. destruct (W t) as [|y [|? ?]]; try discriminate. rewrite !abs_shape. cbn [nth] in E2. cbn [join2 sh]. rewrite E2. reflexivity.
  - intros p Hp. rewrite abs_shape in Hp. rewrite abs_at by exact Hp. rewrite abs_chain by assumption. cbv beta.
    apply jt_ext with (phi := fun t => cmod (at_ (nth 0 (W t) nd0) (p ++ [0]), at_ (nth 0 (W t) nd0) (p ++ [1]))).
    + generalize (near_and C1 J1). apply near_imp. intros t [E1 E2]. destruct (W t) as [|y [|? ?]]; try discriminate. cbn [nth] in *. symmetry. rewrite abs_at; [reflexivity|]. cbn [join2 sh]. rewrite E2. exact Hp.
    + assert (HI : forall k, k < 2 -> inb (p ++ [k]) (sh x)) by (intros k Hk; rewrite EX; apply inb_snoc; auto).
      pose proof (abs_jet (J2 _ (HI 0 ltac:(lia))) (J2 _ (HI 1 ltac:(lia))) (HZ p Hp)) as HK. eapply jet2_eq; [exact HK|reflexivity|reflexivity|].
      rewrite abs_chain by assumption. rewrite abs_quad by auto. change (@radd R CRing_R) with Rplus. cbn [join2 at_ fst snd]. apply Rplus_comm.
Qed.
Lemma abs_ext x : iscx x -> fwd_ext abs_op [x].
Proof.
  intros HX ys HE. inversion HE as [|? y ? l E E2]; subst. inversion E2; subst. destruct E as [E1 E3]. split; [rewrite !abs_shape; cbn; rewrite E1; reflexivity|].
  intros p Hp. rewrite abs_shape in Hp. rewrite !abs_at; [|cbn; rewrite <- E1; exact Hp|exact Hp]. pose proof (join_sh HX) as EX. cbn [join2 at_]. rewrite !E3; [reflexivity| |]; rewrite EX; apply inb_snoc; auto.
Qed.
(* the two parts of a wrapped function's result *)
Lemma wrap_parts {A} {RA : CRing A} (Q : rule A) c2r th args axs eaxs r : als args <> [] -> r_float Q = true ->
  sequence (map (fun a => canon_axes (ndim (lx a)) (r_axes Q)) (als args)) = Some axs -> sequence (map (fun x => canon_axes (ndim x) (r_axes Q)) (exs args)) = Some eaxs ->
  wrap_fl Q c2r th args = Some r -> exists y g l h l2, jvp_fn (r_fn Q) (merge_of (mask_of args)) (exs args) th (r_fl Q) (r_axes Q) (als args) = Some (y, g, l) /\
    jhj_trace (f_op (r_fn Q)) c2r (r_fl Q) (r_custom Q) (exs args) axs eaxs (merge_of (mask_of args)) th (als args) = Some h /\ bin radd l h = Some l2 /\ r = AL (Lapl y g l2).
Proof.
  intros Hne HF Ea Ee H. unfold wrap_fl in H. rewrite Ea, Ee in H. cbn [bind] in H.
  assert (HX : forall (X : Type) (u v : X), match als args with [] => u | _ :: _ => v end = v) by (intros; destruct (als args); congruence). rewrite HX in H. clear HX.
  destruct (jvp_fn _ _ _ _ _ _ _) as [[[y g] l]|] eqn:E1; [|discriminate]. cbn [bind] in H.
  destruct (jhj_trace _ _ _ _ _ _ _ _ _ _) as [h|] eqn:E2; [|discriminate]. cbn [bind] in H.
  destruct (bin radd l h) as [l2|] eqn:E3; [|discriminate]. cbn [bind] in H. rewrite HF in H. exists y, g, l, h, l2. assert (r = AL (Lapl y g l2)) by congruence. auto.
Qed.
Lemma lapl_dense_weak {A} {RA : CRing A} (a d : lapl A) : lapl_dense a = Some d -> weak (ljac d) = false.
Proof.
  unfold lapl_dense. destruct (as_dense (ljac a)) as [J|] eqn:E; [|discriminate]. cbn [bind]. intros H. injection H as <-. cbn [ljac]. unfold as_dense in E. unfold weak.
  destruct (dense_array (ljac a)); [|discriminate]. cbn [bind] in E. injection E as <-. reflexivity.
Qed.
Lemma lmap_shape {A B} (phi : A -> B) (a : lapl A) : sh (lx (lmap phi a)) = sh (lx a). Proof. reflexivity. Qed.
Lemma re_0 : re (@r0 _ CRing_CR) = 0%R. Proof. reflexivity. Qed.
Lemma re_radd : @additive (R * R) R CRing_CR CRing_R re. Proof. exact (@re_additive R CRing_R). Qed.
(* The rule for the modulus is exact when the Jacobian is dense or stores every input at most once per element (C21), away from zero. *)
Theorem abs_ok n c2r th a r : 0 < n -> vok n (AL a) -> iscx (lx a) -> paired (AL a) -> (forall p, inb p (sh (join2 (lx a))) -> at_ (join2 (lx a)) p <> (0, 0)%R) ->
  (weak (ljac a) = false \/ jdistinct (ljac (join_la a))) -> abs_run c2r th [AL a] = Some r -> cx_ok n abs_op [AL a] r.
Proof.
  intros Hn HV HX HP HZ HD H. pose proof (@dec_vok n (AL a) HV HX HP) as HVC. cbn [dec] in HVC. set (c := join_la a) in *. set (x := join2 (lx a)) in *. set (s := sh x) in *.
  assert (Ex : lx c = x) by reflexivity. assert (Hone : als [AL c] <> []) by discriminate. assert (HVs : forall v, In v [AL c] -> vok n v) by (intros v [<-|[]]; exact HVC).
  assert (HB : bshapes (map (@sh (R * R)) (map (@aval (R * R)) [AL c])) <> None).
  { cbn [map aval]. unfold bshapes. cbn [fold_left]. rewrite (@bshape2_bto_l [] (sh (lx c))) by apply bto_nil. discriminate. }
  cbn [abs_run] in H. unfold complex_abs, dec in H. fold c in H. destruct (wrap_fl _ c2r th [AL c]) as [w|] eqn:EW; [|discriminate]. cbn [option_map] in H. injection H as <-.
  destruct (@wrap_parts _ CRing_CR (ew_rule ab_f ab_1 ab_2 0%Z (Some (cabs_rule (fun z => / cmod z)%R))) c2r th [AL c] [[]] [] w Hone eq_refl eq_refl eq_refl EW) as (y & g & l & h & l2 & EJ & EH & EB & ->).
  cbn [r_fn r_fl r_axes r_custom ew_rule f_op] in EJ, EH.
  destruct (@ew_first _ CRing_CR ab_f ab_1 ab_2 n th 0%Z [AL c] (y, g, l) Hn Hone HVs HB (mix1_two [c] (le_S _ _ (le_n _))) EJ) as [(Sy & Sg & Sl & SJ & SL) SR]. cbn [fst snd] in SR.
  rewrite !merged_fwd in *. cbn [map aval] in *. rewrite Ex in *. fold ab_op in *.
  assert (Es : sh (o_fwd ab_op [x]) = s) by (cbn [ab_op ew_op o_fwd sh]; apply ew_one_shape). rewrite Es in *.
  (* the entries over the complex numbers *)
  assert (CH : forall p v, inb p s -> chain1 ab_op [x] p v = rmul (ab_1 [at_ x p] 0) (v 0%nat p)).
  { intros p v Hp. unfold ab_op. rewrite ew_chain; [|exact HB|rewrite ew_one_shape; exact Hp]. unfold sumn. cbn [length seq sumL nth]. unfold ew_vals. cbn [map nth]. rewrite !(@bproj_same (sh x) p Hp). ring. }
  assert (JE : forall i p, inb p s -> jent g i p = rmul (ab_1 [at_ x p] 0) (jent (ljac c) i p)).
  { intros i p Hp. rewrite (SJ i p Hp). rewrite dspec_all. unfold dspec. rewrite xs_lift. cbn [map aval]. rewrite Ex. rewrite (CH p _ Hp). reflexivity. }
  assert (LE : forall p, inb p s -> at_ l p = rmul (ab_1 [at_ x p] 0) (at_ (llap c) p)).
  { intros p Hp. rewrite (SL p Hp). rewrite lspec_all. unfold lspec. rewrite xs_lift. cbn [map aval]. rewrite Ex. rewrite (CH p _ Hp). reflexivity. }
  assert (JC : forall i p, jent (ljac c) i p = (jent (ljac a) i (p ++ [0]), jent (ljac a) i (p ++ [1]))) by (intros i p; exact (@paired_jent n (AL a) i p HV HX HP)).
  (* the second-order term *)
  assert (HH : bto (sh h) s /\ forall p, inb p s -> re (at_ h (bproj (sh h) p)) = sumn n (fun i => abs_dd (/ cmod (at_ x p))%R (at_ x p) (jent (ljac c) i p))).
  { pose proof (@ew_setup _ CRing_CR ab_f ab_1 ab_2 n [AL c] Hn Hone HVs HB) as HS. fold ab_op in HS. cbn [als exs map app] in HS, EH.
    assert (Hbrd : brdcast_shape (leaves_of [c] [[]] [] []) = Some s).
    { unfold brdcast_shape, leaves_of. cbn [map combine app fst snd]. unfold bshapes. cbn [fold_left]. rewrite (@bshape2_bto_l [] _) by apply bto_nil. f_equal. unfold reduced_shape. rewrite <- sax_keep, sax_nil, keep_pos_nil, permute_id. rewrite Ex. reflexivity. }
    assert (Hso : sh (o_fwd ab_op (merge_of (mask_of [AL c]) (xs_of [c]) [])) = s ++ []) by (rewrite app_nil_r; exact Es).
    assert (HC : forall args' es idx' r0, cabs_rule (fun z => / cmod z)%R args' es (merge_of (mask_of [AL c])) idx' = Some r0 -> sh r0 = []).
    { intros args' es idx' r0 E. unfold cabs_rule in E. destruct args' as [|a1 [|? ?]]; try discriminate. destruct (sheq _ _); [|discriminate]. injection E as <-. reflexivity. }
    destruct (@custom_verbatim _ CRing_CR n ab_op c2r 0%Z _ [] [[]] [] _ th [c] h [] s HS eq_refl eq_refl eq_refl HC Hbrd Hso EH) as [(-> & _ & HN)|(args1 & HA & Eh & HK)].
    - split; [apply bto_nil|]. intros p Hp. cbn [nd0 at_]. rewrite (@sumn_zero R CRing_R); [reflexivity|]. intros i Hi. rewrite app_nil_r in HN.
      pose proof (HN (ex_intro _ p Hp) 0 i p ltac:(cbn; lia) Hi Hp) as E0. cbn [nth] in E0. rewrite E0. apply abs_dd_0.
    - rewrite app_nil_r in Eh. split; [rewrite Eh; apply bto_refl|]. intros p Hp. rewrite Eh, (bproj_same Hp).
      destruct (HK p Hp) as (args' & es & idx' & r0 & S1 & S2 & EC & EA). specialize (EA [] ltac:(constructor)). rewrite app_nil_r in EA. rewrite EA.
      unfold cabs_rule in EC. destruct args' as [|a1 [|? ?]]; try discriminate. destruct (sheq (sh (lx a1)) []) eqn:Esh; [|discriminate]. injection EC as <-. cbn [at_ re fst]. unfold re. cbn [fst].
      (* the slice *)
      assert (H1 : exists c1, args1 = [c1] /\ lx c1 = x /\ (weak (ljac c1) = false \/ jdistinct (ljac c1)) /\ forall i q, inb q s -> jent (ljac c1) i q = jent (ljac c) i q).
      { destruct HA as [->|HA].
        - exists c. split; [reflexivity|]. split; [exact Ex|]. split; [|auto]. destruct HD as [HD|HD]; [left|right; exact HD]. unfold weak in *. cbn. destruct (jidx (ljac a)); [discriminate|reflexivity].
        - destruct (@args_dense_spec _ CRing_CR n [c] args1 Hn ltac:(intros b [<-|[]]; apply HVC) HA) as (L & X & W & J). destruct args1 as [|c1 [|? ?]]; try discriminate. exists c1. split; [reflexivity|].
          cbn [xs_of map] in X. injection X as X. split; [rewrite X; exact Ex|]. split.
          + left. unfold args_dense in HA. cbn [map sequence] in HA. destruct (lapl_dense c) as [c2|] eqn:E2; [|discriminate]. cbn [bind] in HA. injection HA as <-. exact (@lapl_dense_weak _ CRing_CR c _ E2).
          + intros i q Hq. apply (J 0 i q); [cbn; lia|exact Hq]. }
      destruct H1 as (c1 & -> & Ec1 & Dc1 & Jc1). destruct S1 as [_ S1]. specialize (S1 0 ltac:(cbn; lia)). cbn [nth] in S1. destruct S1 as (X1 & W1 & K1 & R1 & J1 & D1).
      apply sheq_eq in Esh.
      assert (Ez : at_ (lx a1) [] = at_ x p).
      { destruct X1 as [X1 X2]. rewrite Ec1 in X1, X2. rewrite <- X2; [|rewrite X1, Esh; constructor]. cbn [bslice at_]. unfold ndim. rewrite sax_nil, keep_pos_nil, permute_id. rewrite (@bproj_same (sh x) p Hp). rewrite weave_nil; [reflexivity|apply inb_length; exact Hp]. }
      rewrite Ez. destruct W1 as [W1 _]. rewrite Esh in W1.
      assert (Dd : weak (ljac a1) = false \/ jdistinct (ljac a1)) by (destruct Dc1 as [Dc1|Dc1]; [left; rewrite K1; exact Dc1|right; exact (D1 Dc1)]).
      match goal with |- _ = ?G => change (@cabs_jhj R CRing_R (/ cmod (at_ x p))%R (at_ x p) (ljac a1) = G) end. rewrite (@cabs_exact R CRing_R n (/ cmod (at_ x p))%R (at_ x p) (ljac a1) W1 Dd). unfold cabs_spec. apply sumn_ext. intros i Hi. f_equal.
      assert (Hj : inb [] (permute (sax (length (sh (lx c1))) []) (sh (lx c1)))) by (rewrite sax_nil; constructor). refine (eq_trans (J1 i [] Hj) _). rewrite Ec1. unfold wv. rewrite sax_nil, keep_pos_nil, permute_id. rewrite (@bproj_same (sh x) p Hp). rewrite weave_nil by (apply inb_length; exact Hp). apply Jc1. exact Hp. }
  destruct HH as [HH1 HH2]. destruct (@bin_bto _ CRing_CR l h s Sl HH1) as (t & Et & St & At). assert (t = l2) by congruence. subst t.
  exists (lmap re (Lapl y g l2)). split; [reflexivity|].
  assert (AC : forall p (v : ix -> R), inb p s -> re (rmul (ab_1 [at_ x p] 0) (v (p ++ [0]), v (p ++ [1]))) = ((fst (at_ x p) * v (p ++ [0%nat]) + snd (at_ x p) * v (p ++ [1%nat])) * / cmod (at_ x p))%R).
  { intros p v Hp. unfold ab_1. cbn [nth]. unfold re. cc. unfold Rdiv. ring. }
  split.
  - split; [cbn [lx lmap map aval abs_op o_fwd]; rewrite Sy; reflexivity|]. cbn [map aval]. rewrite abs_shape. fold x. fold s. destruct Sg as (k & Ek & Sg). split; [|split].
    + split; [|cbn; rewrite Sy, St, Es; reflexivity]. exists k. cbn [lmap ljac jmap jdata jidx ndmap sh lx]. rewrite Sy, Es. split; [exact Ek|]. destruct (jidx g) as [m|]; [|exact Sg]. destruct Sg as [G1 G2]. split; [exact G1|]. intros u p Hu Hp. destruct (G2 u p Hu Hp) as [A1 A2]. split; [exact A1|]. intros Hneg. exact (f_equal re (A2 Hneg)).
    + intros i p Hp. cbn [lmap ljac]. rewrite (@jent_map _ _ CRing_CR CRing_R re re_radd). rewrite (JE i p Hp), JC, (AC p (jent (ljac a) i) Hp). unfold dspec. cbn [map lift xs_of]. rewrite abs_chain by assumption. reflexivity.
    + intros p Hp. cbn [lmap llap ndmap at_]. rewrite (At p Hp). change (re (radd (at_ l p) (at_ h (bproj (sh h) p)))) with (re (at_ l p) + re (at_ h (bproj (sh h) p)))%R. rewrite (HH2 p Hp), (LE p Hp).
      change (at_ (llap c) p) with (at_ (llap a) (p ++ [0]), at_ (llap a) (p ++ [1])). rewrite (AC p (at_ (llap a)) Hp). unfold lspec, hspec. cbn [map lift xs_of]. rewrite abs_chain by assumption. change (@radd R CRing_R) with Rplus. f_equal.
      apply sumn_ext. intros i _. rewrite abs_quad; [|exact HX|exact Hp|apply HZ; exact Hp]. cbn [nth]. fold x. rewrite JC. reflexivity.
  - intros Hw. apply SR. unfold weak in *. cbn in Hw. exact Hw.
Qed.

(* ---- the primitives of a program that involve complex arrays ---- *)
(* wrapped_functions.py:262-300, 302-435: holomorphic functions, real/imag/conj and casts, the modulus *)
Inductive cprim := CKern (c : ckern) | CCross (k : cross) | CAbs.
(* the function, on arrays stored as real and imaginary parts (jax.lax) *)
Definition cx_op (c : cprim) : op R := match c with CKern k => rop (ck_op k) | CCross k => cross_op k | CAbs => abs_op end.
(* its registered rule (wrapped_functions.py:262-300, 302-435) *)
Definition cx_run (c : cprim) (c2r : bool) (th : Z) (xs : list (arg R)) : option (arg R) :=
  match c with CKern k => option_map enc (ck_run k c2r th (map dec xs)) | CCross k => cross_run k xs | CAbs => abs_run c2r th xs end.
(* the shapes fit *)
Definition cx_applies (c : cprim) (xs : list (nd R)) : Prop :=
  match c with CKern k => (forall x, In x xs -> iscx x) /\ ck_applies k (map join2 xs) | CCross k => exists x, xs = [x] /\ cross_in k x | CAbs => exists x, xs = [x] /\ iscx x end.
(* holomorphic at the arguments; for the modulus, no element is zero *)
Definition cx_diff (c : cprim) (xs : list (nd R)) : Prop :=
  match c with CKern k => ck_diff k (map join2 xs) | CCross _ => True
  | CAbs => forall p, inb p (sh (join2 (nth 0 xs nd0))) -> at_ (join2 (nth 0 xs nd0)) p <> (0, 0)%R end.
(* the sparsity layouts the rule handles exactly: the real and imaginary part of an element carry the same indices, and C13, C16, C17, C21 *)
Definition cx_mix (th : Z) (n : nat) (c : cprim) (args : list (arg R)) : Prop :=
  match c with
  | CKern k => Forall paired args /\ ck_mix th n k (map dec args)
  | CCross k => match k with XComplex | XFloat => True | _ => Forall paired args end
  | CAbs => Forall paired args /\ Forall (fun a => weak (ljac a) = false \/ jdistinct (ljac (join_la a))) (als args)
  end.
Lemma dense_paired (v : arg R) : dense_arg v -> paired v.
Proof. destruct v as [a|x]; [|exact (fun H => H)]. cbn. unfold weak. destruct (jidx (ljac a)); [discriminate|auto]. Qed.
Lemma dense_dec (v : arg R) : dense_arg v -> dense_arg (dec v).
Proof. destruct v as [a|x]; cbn; [|auto]. unfold weak. cbn. destruct (jidx (ljac a)); [discriminate|auto]. Qed.
Lemma cx_mix_dense th n c args : Forall (@dense_arg R) args -> cx_mix th n c args.
Proof.
  intros H. assert (HP : Forall paired args) by (eapply Forall_impl; [exact dense_paired|exact H]). destruct c as [k|k|]; cbn [cx_mix].
  - split; [exact HP|]. apply ck_mix_dense. apply Forall_forall. intros v Hv. apply in_map_iff in Hv. destruct Hv as (u & <- & Hu). apply dense_dec. rewrite Forall_forall in H. auto.
  - destruct k; auto.
  - split; [exact HP|]. apply Forall_forall. intros a Ha. left. apply In_als in Ha. rewrite Forall_forall in H. exact (H _ Ha).
Qed.
Lemma cx_smooth c xs : cx_applies c xs -> cx_diff c xs -> smooth (cx_op c) xs.
Proof.
  intros HA HD. destruct c as [k|k|]; cbn [cx_applies cx_diff cx_op] in *.
  - destruct HA as [H1 H2]. apply rop_smooth; [exact H1|]. exact (@ck_smooth k _ H2 HD).
  - destruct HA as (x & -> & HX). exact (affine_smooth (picks_affine (cross_picks k x HX))).
  - destruct HA as (x & -> & HX). exact (@abs_smooth x HX HD).
Qed.
Lemma cx_ext c xs : cx_applies c xs -> fwd_ext (cx_op c) xs.
Proof.
  intros HA. destruct c as [k|k|]; cbn [cx_applies cx_op] in *.
  - destruct HA as [H1 H2]. apply rop_ext; [exact H1|]. exact (@ck_ext k _ H2).
  - destruct HA as (x & -> & HX). exact (affine_ext (picks_affine (cross_picks k x HX))).
  - destruct HA as (x & -> & HX). exact (@abs_ext x HX).
Qed.
(* every rule that involves complex arrays is exact *)
Theorem cx_sound n c c2r th args r : 0 < n -> (forall v, In v args -> vok n v) -> als args <> [] -> cx_applies c (map (@aval R) args) -> cx_diff c (map (@aval R) args) -> cx_mix th n c args ->
  cx_run c c2r th args = Some r -> cx_ok n (cx_op c) args r.
Proof.
  intros Hn HV Hne HA HD HM H. destruct c as [k|k|]; cbn [cx_applies cx_diff cx_op cx_mix cx_run] in *.
  - destruct HA as [HX HA]. destruct HM as [HP HM]. rewrite Forall_forall in HP. destruct (ck_run k c2r th (map dec args)) as [w|] eqn:E; [|discriminate]. cbn in H. injection H as <-.
    assert (HC : cx_args n args) by (intros v Hv; split; [auto|]; split; [apply HX; apply in_map; exact Hv|auto]).
    destruct (@ck_ok n k c2r th (map dec args) w Hn) as (a & -> & H1 & H2); try assumption.
    + intros v Hv. apply in_map_iff in Hv. destruct Hv as (u & <- & Hu). destruct (HC u Hu) as (C1 & C2 & C3). apply dec_vok; assumption.
    + rewrite als_dec. destruct (als args); [congruence|discriminate].
    + rewrite dec_avals. exact HA.
    + rewrite dec_avals. exact HD.
    + destruct (@enc_ok n _ args a HC H1 H2) as [E1 E2]. exists (split_la a). auto.
  - destruct HA as (x & Ex & HX). destruct args as [|v [|? ?]]; try discriminate. cbn in Ex. injection Ex as <-. refine (@cross_ok n k v r (HV v (or_introl eq_refl)) Hne HX _ H). destruct k; auto; inversion HM; assumption.
  - destruct HA as (x & Ex & HX). destruct args as [|v [|? ?]]; try discriminate. cbn in Ex. injection Ex as <-. destruct v as [a|y]; [|cbn in Hne; congruence]. cbn [als] in HM. destruct HM as [M1 M2]. inversion M1; subst. inversion M2; subst.
    exact (@abs_ok n c2r th a r Hn (HV _ (or_introl eq_refl)) HX H2 HD H4 H).
Qed.
