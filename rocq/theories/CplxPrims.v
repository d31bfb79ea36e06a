(* CplxPrims.v : the rules of wrapped_functions.py:297-442 on complex arrays inside a program with real inputs.  A complex array is kept as a real array
   with a last axis of length 2 (CplxEnc.v); every rule decodes its arguments, runs the same code as for real arrays over the complex numbers, and encodes. *)
From Coq Require Import Reals Lra.
From Coquelicot Require Import Coquelicot.
From Verif Require Export CplxFun ScatRule.
Set Implicit Arguments.
Local Open Scope nat_scope.
Add Ring Cring_prims : (@rth (R * R) CRing_CR).

(* ---- neg, add, sub (wrapped_functions.py:303-311, flags LINEAR) ---- *)
Inductive clin := CNeg | CAdd | CSub.
(* their values *)
Definition clin_f (l : clin) (v : list (R * R)) : R * R := match l with CNeg => ropp (nth 0 v r0) | CAdd => radd (nth 0 v r0) (nth 1 v r0) | CSub => rsub (nth 0 v r0) (nth 1 v r0) end.
(* their derivatives *)
Definition clin_1 (l : clin) (v : list (R * R)) (a : nat) : R * R := match l, a with CNeg, O => ropp r1 | CAdd, O | CAdd, S O | CSub, O => r1 | CSub, S O => ropp r1 | _, _ => r0 end.
(* their second derivatives *)
Definition clin_2 (l : clin) (v : list (R * R)) (a b : nat) : R * R := r0.
(* number of operands *)
Definition clin_ar (l : clin) : nat := match l with CNeg => 1 | _ => 2 end.

(* ---- real, imag, conj (wrapped_functions.py:298-300, wrap_elementwise) and conversion to a complex or another floating type (186-191, 435) ---- *)
Inductive cross := XRe | XIm | XConj | XComplex | XFloat.
(* wrapper.py:157-176, api.py:283-291: the map is applied to the value, the Jacobian data and the Laplacian; between floating types the map is the identity
   (numbers are exact here) *)
Definition cross_run (k : cross) (args : list (arg R)) : option (arg R) :=
  match k with
  | XRe => wrap_elementwise re (map dec args)
  | XIm => wrap_elementwise im (map dec args)
  | XConj => option_map enc (wrap_elementwise cconj (map dec args))
  | XComplex => option_map enc (wrap_elementwise to_complex args)
  | XFloat => match args with [v] => Some v | _ => None end
  end.
(* the functions themselves, on stored arrays, with their (real) derivatives *)
Definition cross_op (k : cross) : op R :=
  match k with
  | XRe => Op (fun xs => ndmap re (join2 (nth 0 xs nd0))) (fun _ p a q => match a with O => if ixeqb (p ++ [0]) q then 1%R else 0%R | _ => 0%R end) (fun _ _ _ _ _ _ => 0%R)
  | XIm => Op (fun xs => ndmap im (join2 (nth 0 xs nd0))) (fun _ p a q => match a with O => if ixeqb (p ++ [1]) q then 1%R else 0%R | _ => 0%R end) (fun _ _ _ _ _ _ => 0%R)
  | XConj => Op (fun xs => split2 (ndmap cconj (join2 (nth 0 xs nd0)))) (fun _ p a q => match a with O => if ixeqb p q then (match last p 0 with O => 1%R | _ => (-1)%R end) else 0%R | _ => 0%R end) (fun _ _ _ _ _ _ => 0%R)
  | XComplex => Op (fun xs => split2 (ndmap to_complex (nth 0 xs nd0))) (fun _ p a q => match a with O => if ixeqb (removelast p) q then (match last p 0 with O => 1%R | _ => 0%R end) else 0%R | _ => 0%R end) (fun _ _ _ _ _ _ => 0%R)
  | XFloat => Op (fun xs => nth 0 xs nd0) (fun _ p a q => match a with O => if ixeqb p q then 1%R else 0%R | _ => 0%R end) (fun _ _ _ _ _ _ => 0%R)
  end.
(* f copies elements of its argument, with coefficients *)
Definition picks (f : op R) (x : nd R) (src : ix -> ix) (c : ix -> R) : Prop :=
  let so := sh (o_fwd f [x]) in
  (forall p q, inb p so -> o_d f [x] p 0 q = if ixeqb (src p) q then c p else 0%R) /\ (forall p a q b r, o_h f [x] p a q b r = 0%R) /\ (forall p, inb p so -> inb (src p) (sh x)) /\
  (forall y, sh y = sh x -> sh (o_fwd f [y]) = so /\ forall p, inb p so -> at_ (o_fwd f [y]) p = (c p * at_ y (src p))%R).
Lemma picks_chain f x src c p v : picks f x src c -> inb p (sh (o_fwd f [x])) -> chain1 f [x] p v = (c p * v O (src p))%R.
Proof.
  intros (P1 & P2 & P3 & P4) Hp. unfold chain1, sumn. cbn [length seq sumL nth]. rewrite (@sumL_single R CRing_R _ _ (src p)).
  - rewrite P1 by exact Hp. rewrite (proj2 (ixeqb_eq _ _) eq_refl). cbn. ring.
  - apply allix_NoDup.
  - apply allix_spec. apply P3. exact Hp.
  - intros q _ Hne. rewrite P1 by exact Hp. rewrite ixeqb_neq by auto. cbn. ring.
Qed.
Lemma picks_affine f x src c : picks f x src c -> affine_at f [x] (fun _ => 0%R).
Proof.
  intros HP. pose proof HP as (P1 & P2 & P3 & P4). split; [intros p a q b r _ _ _ _ _; apply P2|]. intros ys Es. destruct ys as [|y [|? ?]]; try discriminate. injection Es as Es. destruct (P4 y Es) as [E1 E2]. split; [exact E1|]. intros p Hp. rewrite (E2 p Hp), (picks_chain _ HP Hp). cbn [nth]. change (c p * at_ y (src p) = 0 + c p * at_ y (src p))%R. ring.
Qed.
Lemma picks_ok n f a r src c : vok n (AL a) -> picks f (lx a) src c -> lx r = o_fwd f [lx a] -> let so := sh (o_fwd f [lx a]) in
  sh (jdata (ljac r)) = rows (jdata (ljac a)) :: so -> (forall i p, inb p so -> at_ (jdata (ljac r)) (i :: p) = (c p * at_ (jdata (ljac a)) (i :: src p))%R) ->
  match jidx (ljac a), jidx (ljac r) with None, None => True | Some m, Some m' => sh m' = rows (jdata (ljac a)) :: so /\ (forall i p, inb p so -> at_ m' (i :: p) = at_ m (i :: src p)) | _, _ => False end ->
  sh (llap r) = so -> (forall p, inb p so -> at_ (llap r) p = (c p * at_ (llap a) (src p))%R) -> arg_ok n f [AL a] r /\ jrow1 (ljac r).
Proof.
  intros [[(k & Ek & HW) HL] HR] HP Ex so Es Ed Hm Hls Hl. rewrite (rows_cons _ Ek) in *. pose proof HP as (P1 & P2 & P3 & P4). fold so in P1, P3, P4.
  assert (EJ : forall i p, inb p so -> jent (ljac r) i p = (c p * jent (ljac a) i (src p))%R).
  { intros i p Hp. unfold jent. rewrite (rows_cons _ Es), (rows_cons _ Ek). destruct (jidx (ljac a)) as [m|], (jidx (ljac r)) as [m'|]; try contradiction.
    - destruct Hm as [_ Hm]. unfold sumn. rewrite <- (@sumL_scale R CRing_R). apply sumL_ext. intros u _. rewrite (Hm u p Hp), (Ed u p Hp). destruct (Z.eqb _ _); [reflexivity|]. cbn. ring.
    - destruct (i <? k); [apply Ed; exact Hp|]. cbn. ring. }
  split.
  - split; [exact Ex|]. split; [|split].
    + split; [|rewrite Ex; exact Hls]. exists k. rewrite Ex. split; [exact Es|]. destruct (jidx (ljac a)) as [m|], (jidx (ljac r)) as [m'|]; try contradiction; [|exact HW]. destruct Hm as [Hm1 Hm2]. destruct HW as [HW1 HW2]. split; [exact Hm1|]. intros u p Hu Hp. rewrite (Hm2 u p Hp), (Ed u p Hp). destruct (HW2 u (src p) Hu (P3 p Hp)) as [A1 A2]. split; [exact A1|]. intros Hn. rewrite (A2 Hn). cbn. ring.
    + intros i p Hp. cbn [map aval] in Hp. rewrite (EJ i p Hp). unfold dspec. cbn [map lift xs_of]. rewrite (picks_chain _ HP Hp). reflexivity.
    + intros p Hp. cbn [map aval] in Hp. rewrite (Hl p Hp). unfold lspec, hspec. cbn [map lift xs_of]. rewrite (picks_chain _ HP Hp). cbn [nth]. rewrite (@sumn_zero R CRing_R); [cbn; ring|]. intros i _. apply quad_linear; [|exact Hp]. intros q b s b' s' _ _ _ _ _. apply P2.
  - intros Hw. rewrite (rows_cons _ Es). rewrite <- (rows_cons _ Ek). apply HR. unfold weak in *. destruct (jidx (ljac a)), (jidx (ljac r)); try contradiction; auto.
Qed.
(* where the copied elements come from, and with which coefficient *)
Definition cross_src (k : cross) (p : ix) : ix := match k with XRe => p ++ [0] | XIm => p ++ [1] | XConj | XFloat => p | XComplex => removelast p end.
Definition cross_c (k : cross) (p : ix) : R := match k with XConj => match last p 0 with O => 1%R | _ => (-1)%R end | XComplex => match last p 0 with O => 1%R | _ => 0%R end | _ => 1%R end.
Definition cross_in (k : cross) (x : nd R) : Prop := match k with XComplex | XFloat => True | _ => iscx x end.
Lemma cross_picks k x : cross_in k x -> picks (cross_op k) x (cross_src k) (cross_c k).
Proof.
  intros HX. unfold picks. destruct k; cbn [cross_op o_fwd o_d o_h cross_src cross_c cross_in nth] in *; try (split; [intros p q _; reflexivity|]; split; [reflexivity|]).
  - pose proof (join_sh HX) as E. split; [intros p Hp; rewrite E; apply inb_snoc; auto|]. intros y Ey. split; [cbn; rewrite Ey; reflexivity|]. intros p Hp. cbn. unfold re. cbn. ring.
  - pose proof (join_sh HX) as E. split; [intros p Hp; rewrite E; apply inb_snoc; auto|]. intros y Ey. split; [cbn; rewrite Ey; reflexivity|]. intros p Hp. cbn. unfold im. cbn. ring.
  - pose proof (join_sh HX) as E. split; [intros p Hp; rewrite E; exact Hp|]. intros y Ey. split; [cbn; rewrite Ey; reflexivity|]. intros q Hq. destruct (inb_snoc_inv _ Hq) as (p & k & -> & Hp & Hk). cbn [split2 at_ ndmap join2]. rewrite rl, ll. destruct k as [|[|k]]; [| |lia]; unfold cconj; cbn; ring.
  - split; [intros q Hq; destruct (inb_snoc_inv _ Hq) as (p & k & -> & Hp & Hk); rewrite rl; exact Hp|]. intros y Ey. split; [cbn; rewrite Ey; reflexivity|]. intros q Hq. destruct (inb_snoc_inv _ Hq) as (p & k & -> & Hp & Hk). cbn [split2 at_ ndmap]. rewrite rl, ll. destruct k as [|[|k]]; [| |lia]; unfold to_complex; cbn; ring.
  - split; [auto|]. intros y Ey. split; [exact Ey|]. intros p Hp. ring.
Qed.
Definition cx_ok (n : nat) (f : op R) (args : list (arg R)) (r : arg R) : Prop := exists a, r = AL a /\ arg_ok n f args a /\ jrow1 (ljac a).
Theorem cross_ok n k v r : vok n v -> als [v] <> [] -> cross_in k (aval v) -> (match k with XComplex | XFloat => True | _ => paired v end) -> cross_run k [v] = Some r -> cx_ok n (cross_op k) [v] r.
Proof.
  intros HV Hne HX HP H. destruct v as [a|x]; [clear Hne|cbn in Hne; congruence]. cbn [aval] in HX. pose proof (@cross_picks k (lx a) HX) as HK. pose proof HV as [[(m & Em & HW) HL] HR].
  destruct k; cbn [cross_run dec enc map wrap_elementwise option_map] in H; injection H as <-; eexists; (split; [reflexivity|]); apply (@picks_ok n _ a _ _ _ HV HK); try reflexivity; cbn [cross_in cross_op o_fwd nth cross_src cross_c] in *.
  all: try (destruct HX as (s & Es); rewrite Es in Em, HL, HW; assert (Esj : removelast (m :: s ++ [2]) = m :: s) by exact (removelast_last (m :: s) 2)).
  all: rewrite ?(rows_cons _ Em).
  - cbn. rewrite Em, Es, (removelast_last s 2). exact Esj.
  - intros i p Hp. cbn. unfold re. cbn. ring.
  - cbn. cbn in HP. destruct (jidx (ljac a)) as [t|]; cbn [option_map]; [|exact I]. destruct HW as [Ht _]. split; [cbn; rewrite Ht, Es, (removelast_last s 2); exact Esj|]. reflexivity.
  - cbn. rewrite HL, Es. reflexivity.
  - intros p Hp. cbn. unfold re. cbn. ring.
  - cbn. rewrite Em, Es, (removelast_last s 2). exact Esj.
  - intros i p Hp. cbn. unfold im. cbn. ring.
  - cbn. cbn in HP. destruct (jidx (ljac a)) as [t|]; cbn [option_map]; [|exact I]. destruct HW as [Ht _]. split; [cbn; rewrite Ht, Es, (removelast_last s 2); exact Esj|]. intros i p Hp. cbn. exact (HP (i :: p)).
  - cbn. rewrite HL, Es. reflexivity.
  - intros p Hp. cbn. unfold im. cbn. ring.
  - cbn. rewrite Em, Es, (removelast_last s 2), Esj. reflexivity.
  - intros i q Hq. destruct (inb_snoc_inv _ Hq) as (p & k & -> & Hp & Hk). cbn [enc split_la ljac split_jac jdata lmap jmap join_la join_jac ndmap split2 at_ join2]. change (i :: p ++ [k]) with ((i :: p) ++ [k]). rewrite !rl, !ll. destruct k as [|[|k]]; [| |lia]; unfold cconj; cbn; ring.
  - cbn. cbn in HP. destruct (jidx (ljac a)) as [t|]; cbn [option_map]; [|exact I]. destruct HW as [Ht _]. split; [cbn; rewrite Ht, Es, (removelast_last s 2), Esj; reflexivity|]. intros i q Hq. destruct (inb_snoc_inv _ Hq) as (p & k & -> & Hp & Hk). cbn [split_idx join_idx at_]. change (i :: p ++ [k]) with ((i :: p) ++ [k]). rewrite rl. destruct k as [|[|k]]; [reflexivity|exact (HP (i :: p))|lia].
  - cbn. rewrite HL, Es. reflexivity.
  - intros q Hq. destruct (inb_snoc_inv _ Hq) as (p & k & -> & Hp & Hk). cbn [split_la llap lmap join_la ndmap split2 at_ join2]. rewrite !rl, !ll. destruct k as [|[|k]]; [| |lia]; unfold cconj; cbn; ring.
  - cbn. rewrite Em. reflexivity.
  - intros i q Hq. destruct (inb_snoc_inv _ Hq) as (p & k & -> & Hp & Hk). cbn [split_la ljac split_jac jdata lmap jmap ndmap split2 at_]. change (i :: p ++ [k]) with ((i :: p) ++ [k]). rewrite !rl, !ll. destruct k as [|[|k]]; [| |lia]; unfold to_complex; cbn; ring.
  - cbn. destruct (jidx (ljac a)) as [t|]; cbn [option_map]; [|exact I]. destruct HW as [Ht _]. split; [cbn; rewrite Ht; reflexivity|]. intros i q Hq. destruct (inb_snoc_inv _ Hq) as (p & k & -> & Hp & Hk). cbn [split_idx at_]. change (i :: p ++ [k]) with ((i :: p) ++ [k]). rewrite !rl. reflexivity.
  - cbn. rewrite HL. reflexivity.
  - intros q Hq. destruct (inb_snoc_inv _ Hq) as (p & k & -> & Hp & Hk). cbn [split_la llap lmap ndmap split2 at_]. rewrite !rl, !ll. destruct k as [|[|k]]; [| |lia]; unfold to_complex; cbn; ring.
  - exact Em.
  - intros i p Hp. ring.
  - destruct (jidx (ljac a)) as [t|]; [|exact I]. destruct HW as [Ht _]. split; [exact Ht|reflexivity].
  - exact HL.
  - intros p Hp. ring.
Qed.

(* ---- functions from complex arrays to complex arrays ---- *)
Inductive ckern :=
| KLin (l : clin) | KMul | KDiv
| KFun (m : nat) (e : cfun)                          (* exp, log, sin, ..., pow: an elementwise holomorphic function of m arrays *)
| KSum (axes : list nat)
| KRed (axes : list nat) (f : op (R * R))            (* reduce_prod *)
| KIndex (g : iop) (ok filled : bool)                (* broadcast_in_dim, reshape, slice, ... *)
| KLinear (f : op (R * R))                           (* cumsum, scatter_add *)
| KDot (D : dims)                                    (* dot_general *)
| KOther (f : op (R * R))                            (* not registered: wrapper.py:73-138 without flags (interpreter.py:28-44) *)
| KScatter (g : iop) (ok filled dims_ok : bool) (ids : list nat).   (* scatter, ScatRule.v *)
(* the function computed, with its complex derivatives (jax.lax) *)
Definition ck_op (c : ckern) : op (R * R) :=
  match c with
  | KLin l => ew_op (clin_f l) (clin_1 l) (clin_2 l) | KMul => op_mul | KDiv => op_div cinv | KFun m e => ew_op (cval e) (cder e) (cder2 e)
  | KSum axes => op_sum axes | KRed _ f | KLinear f | KOther f => f | KIndex g _ _ | KScatter g _ _ _ _ => iop_op g | KDot D => op_dotc D
  end.
(* its registered rule: wrapped_functions.py:297-442 *)
Definition ck_run (c : ckern) (c2r : bool) (th : Z) (xs : list (arg (R * R))) : option (arg (R * R)) :=
  match c with
  | KLin l => wrap_fl (ew_rule (clin_f l) (clin_1 l) (clin_2 l) LINEAR None) c2r th xs
  | KMul => wrap_fl mul_rule c2r th xs
  | KDiv => wrap_fl (div_rule cinv) c2r th xs
  | KFun m e => wrap_fl (ew_rule (cval e) (cder e) (cder2 e) 0%Z None) c2r th xs
  | KSum axes => wrap_fl (sum_rule (map Z.of_nat axes) axes) c2r th xs
  | KRed axes f => wrap_fl (red_rule f (map Z.of_nat axes) REDUCTION) c2r th xs
  | KIndex g ok filled => wrap_fl (index_rule g ok filled) c2r th xs
  | KLinear f => wrap_fl (fn_rule (Fn f None None) LINEAR None) c2r th xs
  | KDot D => dot_prim c2r th D xs
  | KOther f => wrap_fl (fn_rule (Fn f None None) 0%Z None) c2r th xs
  | KScatter g ok filled dims_ok ids => wrap_scatter g ok filled dims_ok ids c2r th xs
  end.
(* its shapes fit *)
Definition ck_applies (c : ckern) (xs : list (nd (R * R))) : Prop :=
  let ar m := length xs = m /\ bshapes (map (@sh (R * R)) xs) <> None in
  match c with
  | KLin l => ar (clin_ar l) | KMul | KDiv => ar 2 | KFun m e => ar m /\ cvars m e = true
  | KSum axes => exists x, xs = [x] /\ axes <> [] /\ NoDup axes /\ forall d, In d axes -> d < ndim x
  | KRed axes f => (exists x, xs = [x] /\ axes <> [] /\ NoDup axes /\ forall d, In d axes -> d < ndim x) /\ fwd_ext f xs
  | KIndex g _ _ | KScatter g _ _ _ _ => iop_wf g (map (@sh (R * R)) xs) | KLinear f | KOther f => fwd_ext f xs | KDot D => dot_fits D xs
  end.
(* it is holomorphic at the arguments *)
Definition ck_diff (c : ckern) (xs : list (nd (R * R))) : Prop :=
  match c with
  | KDiv => forall q, inb q (sh (nth 1 xs nd0)) -> at_ (nth 1 xs nd0) q <> (0, 0)%R
  | KFun m e => ew_dom (cdom e) xs
  | KRed axes f => reduces f (nth 0 xs nd0) axes /\ op_ext f xs /\ smooth f xs
  | KLinear f => linear f xs /\ smooth f xs | KOther f => op_ext f xs /\ smooth f xs
  | _ => True
  end.
(* the mixtures of sparse and dense Jacobians its rule handles exactly (C13, C16, C17) *)
Definition ck_mix (th : Z) (n : nat) (c : ckern) (args : list (arg (R * R))) : Prop :=
  match c with
  | KDiv => mix2 th n (als args) | KFun m e => mix1 (als args) /\ mix2 th n (als args)
  | KIndex _ _ _ => mixI (als args) | KLinear _ => mixF (als args) | KOther _ => mixF (als args) /\ mix2 th n (als args) | KDot D => mixD D args | KScatter _ _ _ _ _ => mixS (als args)
  | _ => True
  end.
Lemma ck_mix_dense th n c args : Forall (@dense_arg (R * R)) args -> ck_mix th n c args.
Proof.
  intros H. assert (E : any_weak (als args) = false).
  { unfold any_weak. destruct (existsb (fun a => weak (ljac a)) (als args)) eqn:E; [|reflexivity]. apply existsb_exists in E. destruct E as (a & Ha & Hw). apply In_als in Ha. rewrite Forall_forall in H. specialize (H _ Ha). cbn in H. congruence. }
  destruct c; cbn; unfold mix1, mix2, mixI, mixF; auto.
  2: right; exact E.
  destruct args as [|u [|v [|? ?]]]; try exact I. intros HS _. exfalso. inversion H as [|? ? D1 _]; subst. destruct u as [a|x]; [cbn in D1, HS; rewrite D1 in HS|cbn in HS]; discriminate.
Qed.
Lemma cinv_l z : z <> (0, 0)%R -> rmul z (cinv z) = r1.
Proof. intros Hz. pose proof (n2_pos Hz) as HN. destruct z as [x y]. unfold cinv, n2 in *. cc. cbn [fst snd] in HN. f_equal; field; lra. Qed.
Lemma jetC_opp phi v d h : jetC phi v d h -> jetC (fun t => ropp (phi t)) (ropp v) (ropp d) (ropp h).
Proof. intros [H1 H2]. split; cbn; apply jet2_opp; assumption. Qed.
Lemma clin_smooth l vs : length vs = clin_ar l -> smooth_fun (clin_f l) (clin_1 l) (clin_2 l) vs.
Proof.
  intros HL. unfold smooth_fun. cbv zeta. intros c D H HJ. destruct l; cbn [clin_ar] in HL; destruct vs as [|x [|y [|? ?]]]; try discriminate; cbn [nth length] in *;
    pose proof (HJ 0 ltac:(lia)) as J0; try pose proof (HJ 1 ltac:(lia)) as J1; cbn [nth] in J0, J1 || cbn [nth] in J0; unfold sumn, clin_f, clin_1, clin_2; cbn [seq map sumL nth].
  - eapply jt_eq; [exact (jetC_opp J0)|..]; ring.
  - eapply jt_eq; [exact (@jt_add _ _ Jet_C _ _ _ _ _ _ _ _ J0 J1)|..]; ring.
  - eapply jt_eq; [exact (@jt_add _ _ Jet_C _ _ _ _ _ _ _ _ J0 (jetC_opp J1))|..]; ring.
Qed.
Lemma cmul_smooth (vs : list (R * R)) : length vs = 2 -> smooth_fun (fun v => rmul (nth 0 v r0) (nth 1 v r0)) (fun v a => match a with O => nth 1 v r0 | S O => nth 0 v r0 | _ => r0 end)
  (fun _ a b => match a, b with O, S O => r1 | S O, O => r1 | _, _ => r0 end) vs.
Proof.
  intros HL. destruct vs as [|x [|y [|? ?]]]; try discriminate. unfold smooth_fun. cbv zeta. intros c D H HJ. pose proof (HJ 0 ltac:(cbn; lia)) as J0. pose proof (HJ 1 ltac:(cbn; lia)) as J1. cbn [nth length] in *. unfold sumn. cbn [seq map sumL nth].
  eapply jt_eq; [exact (@jt_mul _ _ Jet_C _ _ _ _ _ _ _ _ J0 J1)|..]; ring.
Qed.
Lemma cdiv_smooth (vs : list (R * R)) : length vs = 2 -> nth 1 vs r0 <> (0, 0)%R -> smooth_fun (fun v => rmul (nth 0 v r0) (cinv (nth 1 v r0)))
  (fun v a => match a with O => cinv (nth 1 v r0) | S O => ropp (rmul (nth 0 v r0) (rmul (cinv (nth 1 v r0)) (cinv (nth 1 v r0)))) | _ => r0 end)
  (fun v a b => let i := cinv (nth 1 v r0) in match a, b with O, S O => ropp (rmul i i) | S O, O => ropp (rmul i i) | S O, S O => rmul (rmul (radd r1 r1) (nth 0 v r0)) (rmul i (rmul i i)) | _, _ => r0 end) vs.
Proof.
  intros HL Hd. destruct vs as [|x [|y [|? ?]]]; try discriminate. unfold smooth_fun. cbv zeta. intros c D H HJ. pose proof (HJ 0 ltac:(cbn; lia)) as J0. pose proof (HJ 1 ltac:(cbn; lia)) as J1. cbn [nth length] in *. unfold sumn. cbn [seq map sumL nth].
  eapply jt_eq; [exact (@jt_mul _ _ Jet_C _ _ _ _ _ _ _ _ J0 (@cinv_ctw y Hd _ _ _ J1))|..]; ring.
Qed.
Lemma ck_smooth c xs : ck_applies c xs -> ck_diff c xs -> smooth (ck_op c) xs.
Proof.
  intros HA HD. destruct c; cbn [ck_applies ck_diff ck_op] in *.
  - destruct HA as [HL HB]. apply ew_smooth; auto. intros p Hp. apply clin_smooth. unfold ew_vals. rewrite map_length. exact HL.
  - destruct HA as [HL HB]. unfold op_mul. apply ew_smooth; auto. intros p Hp. apply cmul_smooth. unfold ew_vals. rewrite map_length. exact HL.
  - destruct HA as [HL HB]. unfold op_div. apply ew_smooth; auto. intros p Hp. apply cdiv_smooth; [unfold ew_vals; rewrite map_length; exact HL|]. rewrite (@ew_vals_nth _ CRing_CR) by lia. apply HD. apply bproj_inb with (s := ew_shape xs); auto. apply ew_bto; auto. lia.
  - destruct HA as [[HL HB] HC]. apply ew_smooth; auto. intros p Hp. apply cfun_smooth; [unfold ew_vals; rewrite map_length, HL; exact HC|apply HD; exact Hp].
  - destruct HA as (x & -> & H1 & H2 & H3). apply (affine_smooth (sum_affine x H2 H3)).
  - apply HD.
  - apply (affine_smooth (index_affine xs HA)).
  - apply HD.
  - apply dot_smooth. exact HA.
  - apply HD.
  - apply (affine_smooth (index_affine xs HA)).
Qed.
Lemma ck_ext c xs : ck_applies c xs -> fwd_ext (ck_op c) xs.
Proof.
  intros HA. destruct c; cbn [ck_applies ck_op] in *; try (apply ew_ext; apply HA); try apply HA.
  - destruct HA as (x & -> & H1 & H2 & H3). apply (affine_ext (sum_affine x H2 H3)).
  - apply (affine_ext (index_affine xs HA)).
  - apply dot_ext. exact HA.
  - apply (affine_ext (index_affine xs HA)).
Qed.
Lemma norm_nats m axes : norm_axes m (map Z.of_nat axes) = axes.
Proof. unfold norm_axes. rewrite map_map. rewrite <- (map_id axes) at 2. apply map_ext. intros z. destruct (Z.ltb_spec (Z.of_nat z) 0); lia. Qed.
Lemma one_arg {X} (args : list (arg X)) x : map (@aval X) args = [x] -> als args <> [] -> exists a, args = [AL a] /\ lx a = x.
Proof. destruct args as [|[a|y] [|? ?]]; try discriminate; intros E H; [|cbn in H; congruence]. cbn in E. injection E as E. eauto. Qed.
Lemma two_args {X} (args : list (arg X)) : length args = 2 -> exists u v, args = [u; v].
Proof. destruct args as [|u [|v [|? ?]]]; try discriminate. eauto. Qed.
Lemma als_len {X} (args : list (arg X)) : length (als args) <= length args.
Proof. induction args as [|[a|x] l IH]; [cbn; lia|change (als (AL a :: l)) with (a :: als l)|change (als (AX x :: l)) with (als l)]; cbn [length]; lia. Qed.
Lemma cmul_nz z w : z <> (0, 0)%R -> w <> (0, 0)%R -> rmul z w <> (0, 0)%R.
Proof.
  intros Hz Hw E. pose proof (cinv_l Hz) as Ez. apply Hw. transitivity (rmul (rmul z w) (cinv z)); [|rewrite E; destruct (cinv z) as [a b]; cc; f_equal; ring].
  transitivity (rmul (rmul z (cinv z)) w); [rewrite Ez; ring|ring].
Qed.
Lemma inv_C z : z <> (0, 0)%R -> @invertible (R * R) CRing_CR cinv z.
Proof. intros H. unfold invertible. split; [|split]; apply cinv_l; auto using cmul_nz. Qed.
(* the rules are exact over the complex numbers *)
Theorem ck_ok n c c2r th args r : 0 < n -> (forall v, In v args -> vok n v) -> als args <> [] -> ck_applies c (map (@aval (R * R)) args) -> ck_diff c (map (@aval (R * R)) args) -> ck_mix th n c args ->
  ck_run c c2r th args = Some r -> exists a, r = AL a /\ arg_ok n (ck_op c) args a /\ jrow1 (ljac a).
Proof.
  intros Hn HV Hne HA HD HM Hr. pose proof (als_len args) as HL2. destruct c; cbn [ck_run ck_op ck_applies ck_diff ck_mix] in *.
  - destruct HA as [HL HB]. rewrite map_length in HL. refine (@ew_linear_sound _ _ _ _ _ n c2r th LINEAR None args r Hn Hne HV HB _ _ (fun _ _ _ => eq_refl) Hr); [apply mix1_two|reflexivity]. destruct l; cbn [clin_ar] in HL; lia.
  - destruct HA as [HL HB]. rewrite map_length in HL. destruct (two_args _ HL) as (u & v & ->). apply (@mul_sound _ _ n c2r th u v r Hn Hne (HV u (or_introl eq_refl)) (HV v (or_intror (or_introl eq_refl))) HB Hr).
  - destruct HA as [HL HB]. rewrite map_length in HL. destruct (two_args _ HL) as (u & v & ->). refine (@div_sound _ _ _ n c2r th u v r Hn Hne (HV u (or_introl eq_refl)) (HV v (or_intror (or_introl eq_refl))) HB _ HM Hr). intros q Hq. apply inv_C. apply HD. exact Hq.
  - destruct HA as [[HL HB] HC]. destruct HM as [M1 M2]. apply (@ew_general_sound _ _ _ _ _ n c2r th args r Hn Hne HV HB M1 M2 Hr).
  - destruct HA as (x & Ex & H1 & H2 & H3). destruct (one_arg _ Ex Hne) as (a & -> & <-).
    pose proof (@sum_sound _ _ n (map Z.of_nat axes) c2r th a r Hn (HV _ (or_introl eq_refl))) as HX. cbv zeta in HX. rewrite !norm_nats in HX. apply HX; [|split; rewrite norm_nats; assumption|exact Hr]. intros E. apply map_eq_nil in E. auto.
  - destruct HA as [(x & Ex & H1 & H2 & H3) HF]. destruct (one_arg _ Ex Hne) as (a & -> & <-). destruct HD as (D1 & D2 & D3).
    refine (@red_sound _ _ n f (map Z.of_nat axes) c2r th a r Hn (HV _ (or_introl eq_refl)) _ _ _ D2 Hr); [intros E; apply map_eq_nil in E; auto|split; rewrite norm_nats; assumption|rewrite norm_nats; exact D1].
  - apply (@index_sound _ _ n g ok filled c2r th args r Hn Hne HV HA HM Hr).
  - destruct HD as [D1 D2]. apply (@linear_fn_sound _ _ n f c2r th args r Hn Hne HV HM D1 Hr).
  - apply (@dot_prim_sound (R * R) _ n c2r th D args r Hn Hne HV HA HM Hr).
  - destruct HD as [D1 D2], HM as [M1 M2]. apply (@general_fn_sound _ _ n f c2r th args r Hn Hne HV M1 M2 D1 Hr).
  - apply (@scatter_sound _ _ n g ok filled dims_ok ids c2r th args r Hn Hne HV HA HM Hr).
Qed.
