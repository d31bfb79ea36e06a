(* HessRules.v : the contraction dot_general uses (einsum '...i,...i->...'), and the custom Hessian rules of |z| and slogdet. *)
From Verif Require Export HessPrims.
Set Implicit Arguments.

Lemma bsr_self s : bsr s s = Some s.
Proof. induction s as [|x s IH]; cbn; [reflexivity|]. rewrite IH, Nat.eqb_refl. reflexivity. Qed.
Lemma removelast_snoc {X} (l : list X) x : removelast (l ++ [x]) = l.
Proof. rewrite removelast_app by discriminate. cbn. apply app_nil_r. Qed.
Lemma snoc_inb p pre k : inb p (pre ++ [k]) -> exists q j, p = q ++ [j] /\ inb q pre /\ j < k.
Proof.
  intros H. exists (removelast p), (last p 0). assert (p <> []) by (intros ->; apply inb_length in H; rewrite app_length in H; cbn in H; lia).
  pose proof (app_removelast_last 0 H0) as E. split; [exact E|]. rewrite E in H. pose proof (inb_length H) as L. rewrite !app_length in L. cbn in L.
  apply inb_app_inv in H; [|lia]. destruct H as [H1 H2]. split; auto. inversion H2; auto.
Qed.
Lemma ixeqb_snoc q r j k : ixeqb (q ++ [j]) (r ++ [k]) = ixeqb q r && Nat.eqb j k.
Proof.
  destruct (ixeqb (q ++ [j]) (r ++ [k])) eqn:E.
  - apply ixeqb_eq in E. apply app_inj_tail in E. destruct E as [-> ->]. rewrite Nat.eqb_refl. symmetry. rewrite (proj2 (ixeqb_eq r r) eq_refl). reflexivity.
  - symmetry. apply andb_false_iff. destruct (ixeqb q r) eqn:E1; [|auto]. right. apply Nat.eqb_neq. intros ->. apply ixeqb_eq in E1. subst r.
    rewrite (proj2 (ixeqb_eq _ _) eq_refl) in E. discriminate.
Qed.

Section Dot.
Context {A : Type} {RA : CRing A}.
Add Ring Aring_HRd : (@rth A RA).
Open Scope cr_scope.
(* wrapped_functions.py:166-174 dot_last = jnp.einsum('...i,...i->...', lhs, rhs), with its derivatives *)
Definition op_dotlast : op A :=
  let pre (x : nd A) := removelast (sh x) in
  let K (xs : list (nd A)) := last (sh (nth 0%nat xs nd0)) 0%nat in
  let el (xs : list (nd A)) a p k := let x := nth a xs nd0 in at_ x (bproj (pre x) p ++ [k]) in
  let hit (xs : list (nd A)) a p q := ixeqb (removelast q) (bproj (pre (nth a xs nd0)) p) in
  Op (fun xs => Nd (match bshapes (map pre xs) with Some s => s | None => [] end) (fun p => sumn (K xs) (fun k => el xs 0%nat p k * el xs 1%nat p k)))
     (fun xs p a q => if hit xs a p q then match a with O => el xs 1%nat p (last q 0%nat) | S O => el xs 0%nat p (last q 0%nat) | _ => 0 end else 0)
     (fun xs p a q b r => if hit xs a p q && hit xs b p r && Nat.eqb (last q 0%nat) (last r 0%nat)
        then match a, b with O, S O => 1 | S O, O => 1 | _, _ => 0 end else 0).
(* in_axes=-1, canonicalized (utils.py:135-147): the last axis of every operand *)
Definition lasts (xs : list (nd A)) : list (list nat) := map (fun x => [(ndim x - 1)%nat]) xs.

Lemma bslice_last b pre k (x : nd A) : sh x = pre ++ [k] -> (length pre <= length b)%nat -> eqa (bslice [(ndim x - 1)%nat] b x) (Nd [k] (fun j => at_ x (bproj pre b ++ j))).
Proof.
  intros Hx Hb. assert (Hn : (ndim x - 1)%nat = length pre) by (unfold ndim; rewrite Hx, app_length; cbn; lia). unfold bslice. rewrite Hn. unfold ndim. rewrite Hx.
  split; cbn [sh at_]; [rewrite slice_last; reflexivity|]. rewrite slice_last. intros i Hi. inversion Hi as [|t k' i' s' Ht Hi' E1 E2]; subst. inversion Hi'; subst.
  f_equal. apply (@wv_last pre k b t Hb).
Qed.
Theorem dotlast_batched (x y : nd A) px py k : sh x = px ++ [k] -> sh y = py ++ [k] -> bshape2 px py <> None -> batched op_dotlast (lasts [x; y]) [x; y].
Proof.
  intros Hx Hy HB. assert (EB : exists B, bshapes [px; py] = Some B).
  { unfold bshapes. cbn [fold_left]. change (bshape2 [] px) with (option_map (@rev nat) (Some (rev px))). cbn [option_map]. rewrite rev_involutive. destruct (bshape2 px py) as [B|]; [eauto|congruence]. }
  destruct EB as (B & EB). destruct (bshapes_spec _ EB) as [Hs _].
  assert (Bx : bto px B) by (apply Hs; cbn; auto). assert (By : bto py B) by (apply Hs; cbn; auto).
  assert (Nx : (ndim x - 1)%nat = length px) by (unfold ndim; rewrite Hx, app_length; cbn; lia).
  assert (Ny : (ndim y - 1)%nat = length py) by (unfold ndim; rewrite Hy, app_length; cbn; lia).
  assert (Lx : (length px <= length B)%nat) by (apply bto_length; auto). assert (Ly : (length py <= length B)%nat) by (apply bto_length; auto).
  split; [reflexivity|]. exists B, []. split; [|split].
  - cbn [lasts map map2]. rewrite Nx, Ny, Hx, Hy, !reduced_last. exact EB.
  - cbn [op_dotlast o_fwd sh map]. rewrite Hx, Hy, !removelast_snoc, EB, app_nil_r. reflexivity.
  - intros b ys Hb HF. pose proof (inb_length Hb) as Lb. cbn [lasts map map2] in HF.
    inversion HF as [|u v l1 l2 HX HF2 E1 E2]; subst. inversion HF2 as [|u2 v2 l3 l4 HY HF3 E3 E4]; subst. inversion HF3; subst. clear HF HF2 HF3.
    destruct (@bslice_last b px k x Hx) as [X1 X2]; [lia|]. destruct (@bslice_last b py k y Hy) as [Y1 Y2]; [lia|].
    destruct HX as [HX1 HX2], HY as [HY1 HY2]. rewrite X1 in HX1, HX2, X2. rewrite Y1 in HY1, HY2, Y2. cbn [sh] in HX1, HY1, HX2, HY2, X2, Y2.
    split; [cbn [op_dotlast o_fwd sh map]; rewrite <- HX1, <- HY1; reflexivity|].
    intros c a q a' q' Hc Ha Ha' Hq Hq'. inversion Hc; subst c. rewrite app_nil_r. cbn [lasts map].
    assert (HH : forall a q, (a < 2)%nat -> inb q (sh (nth a [x; y] nd0)) -> exists q0 j, q = q0 ++ [j] /\ (j < k)%nat /\
        ixeqb (removelast q) (bproj (removelast (sh (nth a [x; y] nd0))) b) = in_slice (sh (nth a [x; y] nd0)) (nth a [[(ndim x - 1)%nat]; [(ndim y - 1)%nat]] []) b q /\
        permute (sax (ndim (nth a [x; y] nd0)) (nth a [[(ndim x - 1)%nat]; [(ndim y - 1)%nat]] [])) q = [j] /\
        ixeqb (removelast [j]) (bproj (removelast (sh (nth a [v; v2] nd0))) []) = true).
    { clear a q a' q' Ha Ha' Hq Hq' Hc. intros a q Ha Hq. destruct a as [|[|a]]; [| |lia]; cbn [nth] in Hq |- *.
      - rewrite Hx in Hq. destruct (@snoc_inb _ _ _ Hq) as (q0 & j & -> & Hq0 & Hj). pose proof (inb_length Hq0) as L0. exists q0, j. split; auto. split; auto. rewrite Hx, !removelast_snoc, Nx, <- HX1. unfold in_slice, ndim. rewrite Hx, app_length. cbn [length].
        rewrite Nat.add_1_r, keepax_last, sax_last, permute_seq_app. split; [|split; [|reflexivity]].
        + rewrite <- L0, permute_seq_app. reflexivity.
        + rewrite <- L0. apply permute_last.
      - rewrite Hy in Hq. destruct (@snoc_inb _ _ _ Hq) as (q0 & j & -> & Hq0 & Hj). pose proof (inb_length Hq0) as L0. exists q0, j. split; auto. split; auto. rewrite Hy, !removelast_snoc, Ny, <- HY1. unfold in_slice, ndim. rewrite Hy, app_length. cbn [length].
        rewrite Nat.add_1_r, keepax_last, sax_last, permute_seq_app. split; [|split; [|reflexivity]].
        + rewrite <- L0, permute_seq_app. reflexivity.
        + rewrite <- L0. apply permute_last. }
    destruct (HH a q Ha Hq) as (q0 & j & Eq & Hj & Q1 & Q2 & Q3). destruct (HH a' q' Ha' Hq') as (q0' & j' & Eq' & Hj' & Q1' & Q2' & Q3').
    cbn [op_dotlast o_h]. rewrite Q1, Q1', Q2, Q2'. rewrite Q3, Q3'. subst q q'. rewrite !last_last. cbn [last andb].
    destruct (in_slice _ _ b (q0 ++ [j])); cbn [andb]; [|reflexivity]. destruct (in_slice _ _ b (q0' ++ [j'])); reflexivity.
Qed.
Theorem dotlast_core mg (x y : nd A) px py k : merge_ok mg 2 0 -> sh x = px ++ [k] -> sh y = py ++ [k] -> dot_core op_dotlast mg (lasts [x; y]) [x; y] 0.
Proof.
  intros Hm Hx Hy. split; [reflexivity|]. intros ys es L1 L2 Hs. destruct es; [|discriminate]. destruct ys as [|u [|v [|? ?]]]; try discriminate. clear L1 L2.
  assert (Nx : (ndim x - 1)%nat = length px) by (unfold ndim; rewrite Hx, app_length; cbn; lia).
  assert (Ny : (ndim y - 1)%nat = length py) by (unfold ndim; rewrite Hy, app_length; cbn; lia).
  assert (S0 : sh u = [k]) by (specialize (Hs 0%nat ltac:(lia)); cbn [nth lasts map] in Hs; rewrite Nx in Hs; unfold ndim in Hs; rewrite Hx, slice_last in Hs; exact Hs).
  assert (S1 : sh v = [k]) by (specialize (Hs 1%nat ltac:(lia)); cbn [nth lasts map] in Hs; rewrite Ny in Hs; unfold ndim in Hs; rewrite Hy, slice_last in Hs; exact Hs).
  clear Hs. split; [reflexivity|]. split; [cbn; congruence|]. intros p q r Hp Hq Hr. cbn [nth] in Hq, Hr. rewrite S0 in Hq. rewrite S1 in Hr.
  inversion Hq as [|j kk q' s' Hj Hq' E1 E2]; subst. inversion Hq'; subst. inversion Hr as [|j' kk q' s' Hj' Hr' E1 E2]; subst. inversion Hr'; subst. clear Hq Hr Hq' Hr'.
  cbn [merged o_h]. change (length (@nil (nd A))) with 0%nat.
  destruct (@merge_posof mg 2 0 (nd A) nd0 [u; v] [] 0%nat Hm) as [_ P0]; auto. destruct (@merge_posof mg 2 0 (nd A) nd0 [u; v] [] 1%nat Hm) as [_ P1]; auto.
  cbn [nth] in P0, P1. destruct (@merge_two mg Hm 0%nat) as [B0 Hne]; auto. destruct (@merge_two mg Hm 1%nat) as [B1 _]; auto.
  assert (HI : forall i j : nat, ixeqb [i] [j] = Nat.eqb i j) by (intros i0 j0; apply (@ixeqb_snoc [] [] i0 j0)).
  rewrite !HI, ?(Nat.eqb_sym j j'). cbn [op_dotlast o_h]. rewrite P0, P1, S0, S1. cbn [removelast last].
  assert (Hb : ixeqb [] (bproj [] p) = true) by reflexivity. rewrite Hb. cbn [andb]. rewrite ?(Nat.eqb_sym j j').
  destruct (posof mg 2 0 0) as [|[|?]], (posof mg 2 0 1) as [|[|?]]; try lia; destruct (Nat.eqb j' j); auto.
Qed.
End Dot.

Section Slog.
Context {A : Type} {RA : CRing A}.
Add Ring Aring_HRs : (@rth A RA).
Open Scope cr_scope.

(* the Jacobian a rule materialises for its index set: sums over its rows are sums over all n inputs *)
Lemma jac_for n (a : lapl A) idx d : (0 < n)%nat -> awf n a -> idx_covers n [a] idx -> construct_jac_for (ljac a) idx = Some d ->
  let s := sh (lx a) in exists R, sh d = R :: s /\
  forall F : (ix -> A) -> A, (forall u v, (forall q, inb q s -> u q = v q) -> F u = F v) -> (forall u, (forall q, inb q s -> u q = 0) -> F u = 0) ->
    sumn R (fun r => F (fun q => at_ d (r :: q))) = sumn n (fun i => F (fun q => jent (ljac a) i q)).
Proof.
  intros Hn Hw Hc Hd s. pose proof Hw as [HJ _]. fold s in HJ. destruct idx as [o|]; cbn [construct_jac_for] in Hd.
  - pose proof Hc as (R & (Ho & Hdis) & Hcov & Hdn).
    destruct (Nat.eq_dec R 0) as [->|HR].
    + unfold construct_jac_for_idx in Hd. rewrite (rows_cons _ Ho) in Hd. cbn [Nat.eqb] in Hd. injection Hd as <-. exists 1%nat.
      destruct HJ as (k & Hk & _). unfold data_shape. cbn [sh]. rewrite Hk. split; [reflexivity|]. intros F Fe Fz. cbn [at_]. rewrite sumn1. rewrite Fz by auto.
      symmetry. apply sumn_zero. intros i Hi. apply Fz. intros q Hq. apply (Hcov i Hi ltac:(lia) 0%nat q); cbn; auto.
    + assert (HG : get_reduced_jacobians (map (@ljac A) [a]) (Some o) = Some [reshape [R; prod (tl (sh d))] d]).
      { cbn [map get_reduced_jacobians sequence]. rewrite (rows_cons _ Ho). destruct (Nat.eqb_spec R 0); [lia|]. cbn [map sequence]. rewrite Hd. reflexivity. }
      destruct (@red_sum _ _ n [a] (Some o) _ Hn ltac:(discriminate) ltac:(intros b [<-|[]]; auto) Hc HG) as (R' & g & (_ & Hok) & Hsum).
      destruct (Hok 0%nat) as [S1 S2]; [cbn; lia|]. cbn [nth xs_of map reshape sh] in S1, S2. fold s in S1, S2. injection S1 as <- S1.
      assert (Sd : sh d = R :: s).
      { destruct HJ as (k & Hk & Hm). destruct (jidx (ljac a)) as [m|] eqn:Em.
        - destruct (@construct_sparse_spec _ _ (ljac a) m o n k s R [] (proj1 Hw) Em Hk Ho (bto_nil s)) as (res & E1 & E2 & _); [lia|]. congruence.
        - unfold construct_jac_for_idx in Hd. rewrite (rows_cons _ Ho), Em in Hd. destruct (Nat.eqb_spec R 0); [lia|]. injection Hd as <-. cbn. rewrite Ho, Hk. reflexivity. }
      exists R. split; [exact Sd|]. intros F Fe Fz. transitivity (sumn R (fun r => F (g 0%nat r))); [|apply (Hsum (fun u => F (u 0%nat)))].
      * apply sumn_ext. intros r Hr. apply Fe. intros q Hq. rewrite <- S2 by auto. rewrite Sd. cbn [tl]. rewrite (@reshape2_at _ _ R s r _ Sd Hr); [|apply ravel_lt; auto]. rewrite unravel_ravel by auto. reflexivity.
      * intros u v Huv. apply Fe. intros q Hq. apply Huv; cbn; auto.
      * intros u Hu. apply Fz. intros q Hq. apply Hu; cbn; auto.
  - destruct (@dense_array_sound _ _ (ljac a) n s d HJ Hn Hd) as (K & Hs & HK & H1 & H2). exists K. split; [exact Hs|]. intros F Fe Fz.
    transitivity (sumn K (fun i => F (fun q => jent (ljac a) i q))).
    + apply sumn_ext. intros r Hr. apply Fe. intros q Hq. apply H1; auto.
    + symmetry. apply sumn_ge; [exact HK|]. intros i Hi _. apply Fz. intros q Hq. apply H2; auto.
Qed.

(* log |det| of the trailing two axes, given the inverse [mi] of the matrices: value [ld], d log det / dA_ab = (A^-1)_ba (wrapped_functions.py:204-232
   slogdet_jvp) and d^2 log det / dA_ab dA_cd = -(A^-1)_bc (A^-1)_da.  (That these are the first and second derivatives of log|det| over the reals: SlogCalc.v, Props_Slog.v.) *)
Context (ld mi : nd A -> nd A).
(* element (i, j) of the matrix at leading index p *)
Definition mat (x : nd A) (p : ix) (i j : nat) : A := at_ x (p ++ [i; j]).
(* x.shape[:-2] *)
Definition lead (x : nd A) : shape := firstn (ndim x - 2) (sh x).
(* jnp.linalg.slogdet(x)[1] with the derivatives of slogdet_jvp, wrapped_functions.py:204-232 *)
Definition op_logdet : op A :=
  let at2 (q : ix) := skipn (length q - 2) q in let rl (x : nd A) q p := ixeqb (firstn (length q - 2) q) p in
  Op (fun xs => Nd (lead (nth 0%nat xs nd0)) (at_ (ld (nth 0%nat xs nd0))))
     (fun xs p a q => match a with O => let x := nth 0%nat xs nd0 in
        if rl x q p then mat (mi x) p (nth 1 (at2 q) 0%nat) (nth 0 (at2 q) 0%nat) else 0 | _ => 0 end)
     (fun xs p a q b r => match a, b with O, O => let x := nth 0%nat xs nd0 in
        if rl x q p && rl x r p then - (mat (mi x) p (nth 1 (at2 q) 0%nat) (nth 0 (at2 r) 0%nat) * mat (mi x) p (nth 1 (at2 r) 0%nat) (nth 0 (at2 q) 0%nat)) else 0
        | _, _ => 0 end).
(* custom_hessian.py:11-53 slogdet_jac_hessian_jac, the log|det| component for real matrices.  [mi] = jnp.linalg.inv; batched_vmap(elementwise, 1) maps over
   the flattened leading axes (C30). *)
Definition slogdet_jhj : custom_rule A := fun args es mg idx =>
  match args with
  | [a] =>
    let x := lx a in let L := lead x in let m := nth (ndim x - 2) (sh x) 0%nat in
    let* d := construct_jac_for (ljac a) idx in                              (* l.28 *)
    let jm := move_0_last d in                                               (* l.29 *)
    let K := last (sh jm) 0%nat in                                           (* l.31 *)
    let aif := reshape [prod L; m; m] (mi x) in                              (* l.42 *)
    let jf := reshape [prod L; m; m; K] jm in                                (* l.43 *)
    let B l := Nd [m; m; K] (fun i => sumn m (fun j => at_ aif [l; nth 0 i 0; j]%nat * at_ jf [l; j; nth 1 i 0; nth 2 i 0]%nat)) in   (* l.35 *)
    let elem l := match einsum2 (reshape [(m * m)%nat; K] (transpose [1; 0; 2]%nat (B l))) (reshape [(m * m)%nat; K] (B l)) with Some t => - t | None => 0 end in (* l.36-39 *)
    Some (reshape L (Nd [prod L] (fun i => elem (hd 0%nat i))))              (* l.47-48 *)
  | _ => None
  end.

Lemma sumn_opp m (F : nat -> A) : sumn m (fun i => - F i) = - sumn m F.
Proof. apply sumL_opp. Qed.
Lemma sumn_mul m k (F G : nat -> A) : sumn m F * sumn k G = sumn m (fun i => sumn k (fun j => F i * G j)).
Proof. apply sumL_mul. Qed.
Lemma einsum2_same (x y : nd A) u v : sh x = [u; v] -> sh y = [u; v] -> einsum2 x y = Some (sumn u (fun i => sumn v (fun j => at_ x [i; j] * at_ y [i; j]))).
Proof.
  intros Hx Hy. unfold einsum2. rewrite Hx, Hy, bshape2_refl. cbn [bind]. f_equal. rewrite sum_allix_cons. apply sumn_ext. intros i Hi. rewrite sum_allix_cons. apply sumn_ext. intros j Hj.
  cbn [allix sumL]. assert (Hin : inb [i; j] [u; v]) by (repeat constructor; auto). rewrite !bproj_same by auto. ring.
Qed.
Lemma sum_pair m (F : nat -> A) : sumn (m * m) F = sumn m (fun i => sumn m (fun j => F (i * m + j)%nat)).
Proof.
  assert (G : forall k, sumn (k * m) F = sumn k (fun i => sumn m (fun j => F (i * m + j)%nat))); [|apply G].
  induction k as [|k IH]; [reflexivity|]. rewrite sumn_last, <- IH. cbn [Nat.mul]. rewrite Nat.add_comm. apply sumn_split.
Qed.
Lemma reshape3_at (b : nd A) m K i j k : sh b = [m; m; K] -> (i < m)%nat -> (j < m)%nat -> (k < K)%nat -> at_ (reshape [(m * m)%nat; K] b) [(i * m + j)%nat; k] = at_ b [i; j; k].
Proof.
  intros Hs Hi Hj Hk. apply reshape_ravel_eq; [rewrite Hs; repeat constructor; auto|]. rewrite Hs. cbn. nia.
Qed.
Lemma sum_allix2 u v (F : ix -> A) : sumL (allix [u; v]) F = sumn u (fun i => sumn v (fun j => F [i; j])).
Proof. rewrite sum_allix_cons. apply sumn_ext. intros i _. rewrite sum_allix_cons. apply sumn_ext. intros j _. cbn. ring. Qed.
Lemma sum_lead (L : shape) m p (F : ix -> A) : inb p L -> (forall q0 t, inb q0 L -> inb t [m; m] -> q0 <> p -> F (q0 ++ t) = 0) ->
  sumL (allix (L ++ [m; m])) F = sumn m (fun a => sumn m (fun b => F (p ++ [a; b]))).
Proof.
  intros Hp Hz. rewrite sum_allix_app. rewrite (@sumL_single _ _ _ (allix L) p).
  - apply sum_allix2.
  - apply allix_NoDup.
  - apply allix_spec; auto.
  - intros q0 Hq Hne. apply allix_spec in Hq. apply sumL_zero. intros t Ht. apply allix_spec in Ht. apply Hz; auto.
Qed.
Lemma reshape_twice L e p : inb p L -> at_ (reshape L (reshape L (Nd [prod L] e))) p = e [ravel_ix L p] :> A.
Proof.
  intros Hp. rewrite reshape_at. cbn [reshape sh at_]. rewrite unravel_ravel by auto. f_equal.
  replace (ravel_ix L p) with (ravel_ix [prod L] [ravel_ix L p]) at 1 by (cbn; lia). apply unravel_ravel. repeat constructor. apply ravel_lt; auto.
Qed.
(* the second-order term of log|det|: - sum_i tr((M^-1 d_i M)^2), one batch element p *)
Definition trBB (N : nat -> nat -> A) (m : nat) (u : nat -> nat -> A) : A :=
  sumn m (fun i => sumn m (fun c => sumn m (fun j => N c j * u j i) * sumn m (fun j => N i j * u j c))).
Lemma logdet_hspec n mg (L : shape) m a p : merge_ok mg 1 0 -> sh (lx a) = L ++ [m; m] -> inb p L ->
  hspec n (merged op_logdet mg 1 []) [a] p = sumn n (fun i => - trBB (mat (mi (lx a)) p) m (fun s t => jent (ljac a) i (p ++ [s; t]))).
Proof.
  intros Hm Hs Hp. set (N := mat (mi (lx a)) p).
  assert (Nd2 : (ndim (lx a) - 2)%nat = length L) by (unfold ndim; rewrite Hs, app_length; cbn; lia).
  assert (EL : lead (lx a) = L) by (unfold lead; rewrite Nd2, Hs, firstn_app, Nat.sub_diag, firstn_all, firstn_O, app_nil_r; reflexivity).
  assert (Emg : mg _ [lx a] [] = [lx a]).
  { destruct Hm as (lay & Hpm & Hmm). rewrite (Hmm _ nd0) by auto. apply Permutation_sym in Hpm. cbn in Hpm. apply Permutation_length_1_inv in Hpm. rewrite Hpm. reflexivity. }
  assert (Epos : posof mg 1 0 0 = 0%nat) by (destruct (@merge_posof mg 1 0 nat 0%nat [0%nat] [] 0%nat Hm) as [P _]; auto; lia).
  unfold hspec. apply sumn_ext. intros i Hi. unfold trBB, quad. symmetry.
cbn [xs_of map length]. rewrite sumn1. cbn [nth]. rewrite Hs. rewrite (@sum_lead L m p); auto.
  2:{ intros q0 t Hq Ht Hne'. rewrite sumn1. cbn [nth]. rewrite Hs. apply sumL_zero. intros r _. cbn [merged o_h length]. rewrite Epos, Emg. cbn [op_logdet o_h nth].
      replace (length (q0 ++ t) - 2)%nat with (length q0) by (rewrite app_length; apply inb_length in Ht; cbn in Ht; lia). rewrite firstn_app, Nat.sub_diag, firstn_all, firstn_O, app_nil_r.
      rewrite ixeqb_neq by auto. cbn [andb]. ring. }
  assert (Hh : forall a1 b1 c1 d1, o_h (merged op_logdet mg 1 []) [lx a] p 0%nat (p ++ [a1; b1]) 0%nat (p ++ [c1; d1]) = - (N b1 c1 * N d1 a1)).
  { intros. cbn [merged o_h length]. rewrite Epos, Emg. cbn [op_logdet o_h nth]. rewrite !app_length. cbn [length].
    replace (length p + 2 - 2)%nat with (length p) by lia. rewrite !firstn_app, !skipn_app, !Nat.sub_diag, !firstn_all, !skipn_all, !firstn_O, !app_nil_r. rewrite ixeqb_refl. reflexivity. }
  rewrite <- sumn_opp.
  transitivity (sumn m (fun i0 => sumn m (fun c => sumn m (fun j => sumn m (fun j' => - (N c j * N i0 j' * (jent (ljac a) i (p ++ [j; i0]) * jent (ljac a) i (p ++ [j'; c])))))))).
  { apply sumn_ext. intros i0 _. rewrite <- sumn_opp. apply sumn_ext. intros c _. rewrite sumn_mul. rewrite <- sumn_opp. apply sumn_ext. intros j _. rewrite <- sumn_opp. apply sumn_ext. intros j' _. ring. }
  (* rename: a1 = j, b1 = i0, c1 = j', d1 = c *)
  symmetry. rewrite sumn_swap. apply sumn_ext. intros b1 Hb1.
  transitivity (sumn m (fun a1 => sumn m (fun c1 => sumn m (fun d1 => - (N b1 c1 * N d1 a1) * (jent (ljac a) i (p ++ [a1; b1]) * jent (ljac a) i (p ++ [c1; d1])))))).
  { apply sumn_ext. intros a1 Ha1. rewrite sumn1. cbn [nth]. rewrite Hs. rewrite (@sum_lead L m p); auto.
    - apply sumn_ext. intros c1 Hc1. apply sumn_ext. intros d1 Hd1. rewrite Hh. reflexivity.
    - intros q0 t Hq Ht Hne'. cbn [merged o_h length]. rewrite Epos, Emg. cbn [op_logdet o_h nth].
      replace (length (q0 ++ t) - 2)%nat with (length q0) by (rewrite app_length; apply inb_length in Ht; cbn in Ht; lia). rewrite (firstn_app (length q0) q0 t), Nat.sub_diag, firstn_all, firstn_O, app_nil_r.
      rewrite (@ixeqb_neq q0 p) by auto. rewrite andb_false_r. ring. }
  rewrite sumn_swap. transitivity (sumn m (fun c1 => sumn m (fun d1 => sumn m (fun a1 => - (N b1 c1 * N d1 a1) * (jent (ljac a) i (p ++ [a1; b1]) * jent (ljac a) i (p ++ [c1; d1])))))).
  { apply sumn_ext. intros c1 _. apply sumn_swap. }
  rewrite sumn_swap. apply sumn_ext. intros d1 _. rewrite sumn_swap. apply sumn_ext. intros a1 _. apply sumn_ext. intros c1 _. ring.
Qed.
Theorem slogdet_exact n mg (L : shape) m : (0 < n)%nat -> merge_ok mg 1 0 ->
  (forall x, sh x = L ++ [m; m] -> sh (mi x) = L ++ [m; m]) ->
  rule_exact n op_logdet mg slogdet_jhj L (fun args es => length args = 1%nat /\ es = [] /\ sh (lx (nth 0%nat args la0)) = L ++ [m; m]).
Proof.
  intros Hn Hm Hmi args es idx r Hne Hw (L1 & -> & Hs) Hc H. destruct args as [|a [|? ?]]; try discriminate. clear L1. cbn [nth] in Hs.
  pose proof (Hw a (or_introl eq_refl)) as Wa. cbn zeta. unfold slogdet_jhj in H.
  destruct (construct_jac_for (ljac a) idx) as [d|] eqn:Ed; [|discriminate]. cbn [bind] in H.
  destruct (@jac_for n a idx d Hn Wa Hc Ed) as (K & Sd & Hsum). cbn zeta in Hsum. rewrite Hs in Sd, Hsum.
  assert (Nd2 : (ndim (lx a) - 2)%nat = length L) by (unfold ndim; rewrite Hs, app_length; cbn; lia).
  assert (EL : lead (lx a) = L) by (unfold lead; rewrite Nd2, Hs, firstn_app, Nat.sub_diag, firstn_all, firstn_O, app_nil_r; reflexivity).
  assert (Em : nth (ndim (lx a) - 2) (sh (lx a)) 0%nat = m) by (rewrite Nd2, Hs, app_nth2, Nat.sub_diag by lia; reflexivity).
  rewrite EL, Em in H. cbn zeta in H.
  assert (Sm : sh (move_0_last d) = (L ++ [m; m]) ++ [K]) by (unfold move_0_last; cbn [sh]; rewrite Sd; reflexivity).
  rewrite Sm, last_last in H. apply (f_equal (fun o => match o with Some t => t | None => nd0 end)) in H. cbv beta iota in H. rewrite <- H. clear H r. pose proof (Hmi _ Hs) as Smi.
  assert (Emg : mg _ [lx a] [] = [lx a]).
  { destruct Hm as (lay & Hp & Hmm). rewrite (Hmm _ nd0) by auto. apply Permutation_sym in Hp. cbn in Hp. apply Permutation_length_1_inv in Hp. rewrite Hp. reflexivity. }
  assert (Epos : posof mg 1 0 0 = 0%nat) by (destruct (@merge_posof mg 1 0 nat 0%nat [0%nat] [] 0%nat Hm) as [P _]; auto; lia).
  assert (Es : sh (o_fwd (merged op_logdet mg (length [a]) []) (xs_of [a])) = L).
  { cbn [merged o_fwd]. unfold xs_of. cbn [map]. rewrite Emg. cbn [op_logdet o_fwd sh nth]. exact EL. }
  rewrite Es. split; [reflexivity|]. split; [reflexivity|]. intros p Hp. rewrite reshape_twice by auto. cbn beta. cbn [hd]. set (l := ravel_ix L p). assert (Hl : (l < prod L)%nat) by (apply ravel_lt; auto).
  set (N := mat (mi (lx a)) p).
  assert (HA : forall i j, (i < m)%nat -> (j < m)%nat -> at_ (reshape [prod L; m; m] (mi (lx a))) [l; i; j] = N i j).
  { intros i j Hi Hj. rewrite (@reshape_merge_lead _ L [m; m] (mi (lx a)) l [i; j] Smi Hl) by (repeat constructor; auto). unfold N, mat, l. rewrite unravel_ravel by auto. reflexivity. }
  assert (HJ : forall i j k, (i < m)%nat -> (j < m)%nat -> (k < K)%nat -> at_ (reshape [prod L; m; m; K] (move_0_last d)) [l; i; j; k] = at_ d (k :: p ++ [i; j])).
  { intros i j k Hi Hj Hk. rewrite (@reshape_merge_lead _ L [m; m; K] (move_0_last d) l [i; j; k]); [|rewrite Sm, <- app_assoc; reflexivity|auto|repeat constructor; auto].
    unfold l. rewrite unravel_ravel by auto. cbn [move_0_last at_]. replace (p ++ [i; j; k]) with ((p ++ [i; j]) ++ [k]) by (rewrite <- app_assoc; reflexivity). rewrite last_last, removelast_snoc. reflexivity. }
  match goal with |- context [einsum2 (reshape _ (transpose _ ?b)) _] => set (B := b) end.
  assert (SB : sh B = [m; m; K]) by reflexivity.
  assert (HB : forall i c k, (i < m)%nat -> (c < m)%nat -> (k < K)%nat -> at_ B [i; c; k] = sumn m (fun j => N i j * at_ d (k :: p ++ [j; c]))).
  { intros i c k Hi Hc' Hk. unfold B. cbn [at_ nth]. apply sumn_ext. intros j Hj. rewrite HA, HJ by auto. reflexivity. }
  assert (ST : sh (transpose [1; 0; 2]%nat B) = [m; m; K]) by (cbn [transpose sh]; rewrite SB; reflexivity).
  assert (HT : forall i c k, at_ (transpose [1; 0; 2]%nat B) [i; c; k] = at_ B [c; i; k]) by (intros; unfold transpose, ndim; cbn [at_]; rewrite SB; reflexivity).
  rewrite (@einsum2_same _ _ (m * m) K) by reflexivity.
  set (F := fun u : ix -> A => - sumn m (fun i => sumn m (fun c => sumn m (fun j => N c j * u (p ++ [j; i])) * sumn m (fun j => N i j * u (p ++ [j; c]))))).
  transitivity (sumn K (fun k => F (fun q => at_ d (k :: q)))).
  - unfold F. rewrite sumn_opp.
    f_equal. rewrite sumn_swap. apply sumn_ext. intros k Hk. rewrite sum_pair. apply sumn_ext. intros i Hi. apply sumn_ext. intros c Hc'.
    rewrite !reshape3_at by auto. rewrite HT, !HB by auto. reflexivity.
  - assert (Hin : forall i j, (i < m)%nat -> (j < m)%nat -> inb (p ++ [i; j]) (L ++ [m; m])) by (intros; apply inb_app; auto; repeat constructor; auto).
    rewrite (Hsum F).
    + change (length [a]) with 1%nat. rewrite (@logdet_hspec n mg L m a p Hm Hs Hp). apply sumn_ext. intros i Hi. reflexivity.
    + intros u v Huv. unfold F. f_equal. apply sumn_ext. intros i Hi. apply sumn_ext. intros c Hc'. f_equal; apply sumn_ext; intros j Hj; rewrite Huv by auto; reflexivity.
    + intros u Hu. unfold F. rewrite (@sumn_zero _ _ m); [ring|]. intros i Hi. apply sumn_zero. intros c Hc'. rewrite (@sumn_zero _ _ m); [ring|]. intros j Hj. rewrite Hu by auto. ring.
Qed.
End Slog.

(* ---------- complex numbers over a ring ---------- *)
Section Cplx.
Context {A : Type} {RA : CRing A}.
Add Ring Aring_HRc : (@rth A RA).
Open Scope cr_scope.
(* complex addition *)
Definition cadd (x y : A * A) : A * A := (fst x + fst y, snd x + snd y).
(* complex subtraction *)
Definition csub (x y : A * A) : A * A := (fst x - fst y, snd x - snd y).
(* complex multiplication *)
Definition cmul (x y : A * A) : A * A := (fst x * fst y - snd x * snd y, fst x * snd y + snd x * fst y).
(* complex negation *)
Definition copp (x : A * A) : A * A := (- fst x, - snd x).
Lemma cplx_ring : ring_theory (0, 0) (1, 0) cadd cmul csub copp (@eq (A * A)).
Proof.
  constructor; intros; repeat match goal with x : A * A |- _ => destruct x end; unfold cadd, cmul, csub, copp; cbn [fst snd]; f_equal; ring.
Qed.
(* the complex numbers over A as a commutative ring (no /repo code) *)
Definition CRing_C : CRing (A * A) := {| r0 := (0, 0); r1 := (1, 0); radd := cadd; rmul := cmul; rsub := csub; ropp := copp; rth := cplx_ring |}.

(* custom_hessian.py:56-78 complex_abs_jac_hessian_jac for one element z: J are the rows of args.jacobian[0].data (the index tensor is not
   consulted); [iy] = 1 / |z|.  vdot(|J|,|J|)/y - vdot(x_J, x_J)/y^3 *)
Definition cabs_jhj (iy : A) (z : A * A) (J : jac (A * A)) : A :=
  let K := rows (jdata J) in let at0 r := at_ (jdata J) [r] in
  let xJ r := fst z * fst (at0 r) + snd z * snd (at0 r) in
  sumn K (fun r => fst (at0 r) * fst (at0 r) + snd (at0 r) * snd (at0 r)) * iy - sumn K (fun r => xJ r * xJ r) * (iy * (iy * iy)).
(* custom_hessian.py:56-78 as a custom rule on complex arrays (pairs); iy z = 1/|z|.  The result is real. *)
Definition cabs_rule (iy : A * A -> A) : custom_rule (A * A) := fun args es mg idx =>
  match args with
  | [a] => if sheq (sh (lx a)) [] then Some (Nd [] (fun _ => (cabs_jhj (iy (at_ (lx a) [])) (at_ (lx a) []) (ljac a), 0))) else None
  | _ => None
  end.
(* second derivative of |z| = sqrt(re^2 + im^2) in the direction v: (vr^2 + vi^2)/|z| - (re vr + im vi)^2/|z|^3 (Props_Cplx.v: C21_abs_derivatives) *)
Definition abs_dd (iy : A) (z v : A * A) : A :=
  (fst v * fst v + snd v * snd v) * iy - (fst z * fst v + snd z * snd v) * (fst z * fst v + snd z * snd v) * (iy * (iy * iy)).
(* specification: the sum over the input coordinates of the second derivative of abs *)
Definition cabs_spec (n : nat) (iy : A) (z : A * A) (J : jac (A * A)) : A := sumn n (fun i => abs_dd iy z (@jent _ CRing_C J i [])).
Lemma cabs_rows iy z J : cabs_jhj iy z J = sumn (rows (jdata J)) (fun r => abs_dd iy z (at_ (jdata J) [r])).
Proof. unfold cabs_jhj, abs_dd, sumn. rewrite sumL_sub, !sumL_scale_r. reflexivity. Qed.
Lemma abs_dd_0 iy z : abs_dd iy z (0, 0) = 0.
Proof. unfold abs_dd. cbn [fst snd]. ring. Qed.
Theorem cabs_exact n iy z J : @jwf _ CRing_C n [] J -> (weak J = false \/ jdistinct J) -> cabs_jhj iy z J = cabs_spec n iy z J.
Proof.
  intros (k & Hk & Hw) Hd. rewrite cabs_rows. unfold cabs_spec, jent. rewrite (rows_cons _ Hk). unfold weak in Hd. destruct (jidx J) as [m|] eqn:Em.
  - destruct Hd as [Hd|Hd]; [discriminate|]. destruct Hw as [Hm Hr]. unfold jdistinct in Hd. rewrite Em in Hd. specialize (Hd k [] Hm).
    set (sg := fun r => if (0 <=? at_ m [r])%Z then Some (Z.to_nat (at_ m [r])) else None).
    set (G := fun i => abs_dd iy z (@sumn _ CRing_C k (fun r => if Z.eqb (at_ m [r]) (Z.of_nat i) then at_ (jdata J) [r] else (0, 0)))).
    assert (N0 : inb ([] : ix) []) by constructor.
    assert (HS : forall r i, (r < k)%nat -> sg r = Some i -> @sumn _ CRing_C k (fun r' => if Z.eqb (at_ m [r']) (Z.of_nat i) then at_ (jdata J) [r'] else (0, 0)) = at_ (jdata J) [r]).
    { intros r i Hr' Hs. unfold sg in Hs. destruct (Z.leb_spec 0 (at_ m [r])); [|discriminate]. injection Hs as <-.
      rewrite (@sumn_single _ CRing_C k r); [rewrite Z2Nat.id, Z.eqb_refl by auto; reflexivity|auto|]. intros r' Hr'' Hne. rewrite Z2Nat.id by auto.
      destruct (Z.eqb_spec (at_ m [r']) (at_ m [r])) as [E|E]; [|reflexivity]. exfalso. apply Hne. apply (Hd r' r []); auto; lia. }
    rewrite <- (@rowsum _ _ n k sg G).
    + apply sumn_ext. intros r Hr'. destruct (sg r) as [i|] eqn:Es.
      * unfold G. rewrite (HS r i) by auto. reflexivity.
      * unfold sg in Es. destruct (Z.leb_spec 0 (at_ m [r])) as [?|Hlt]; [discriminate|]. rewrite (proj2 (Hr r [] Hr' N0) Hlt). apply abs_dd_0.
    + intros r i Hr' Hs. unfold sg in Hs. destruct (Z.leb_spec 0 (at_ m [r])); [|discriminate]. injection Hs as <-. pose proof (proj1 (Hr r [] Hr' N0)). lia.
    + intros r r' i Hr1 Hr2 Hs1 Hs2. unfold sg in Hs1, Hs2. destruct (Z.leb_spec 0 (at_ m [r])); [|discriminate]. destruct (Z.leb_spec 0 (at_ m [r'])); [|discriminate].
      injection Hs1 as <-. injection Hs2 as E. apply (Hd r r' []); auto; lia.
    + intros i Hi Hno. unfold G. rewrite (@sumn_zero _ CRing_C k); [apply abs_dd_0|]. intros r Hr'. destruct (Z.eqb_spec (at_ m [r]) (Z.of_nat i)) as [E|E]; [|reflexivity].
      exfalso. apply (Hno r Hr'). unfold sg. rewrite E. destruct (Z.leb_spec 0 (Z.of_nat i)); [|lia]. rewrite Nat2Z.id. reflexivity.
  - rewrite (@sumn_ge _ _ k n).
    + apply sumn_ext. intros i Hi. destruct (Nat.ltb_spec i k); [reflexivity|lia].
    + exact Hw.
    + intros i Hi _. destruct (Nat.ltb_spec i k); [lia|]. apply abs_dd_0.
Qed.
End Cplx.

(* ---------- custom rules are used verbatim ---------- *)
Section Verb.
Context {A : Type} {RA : CRing A}.
Open Scope cr_scope.
Lemma eval_verbatim n f c2r fl cu mg (dense_out : bool) args axs extra eaxs idx r C : setup n f mg args axs extra eaxs ->
  (forall args' es idx' r0, cu args' es mg idx' = Some r0 -> sh r0 = C) ->
  let so := sh (o_fwd f (mg _ (xs_of args) extra)) in
  (let* r := batched_eval f c2r fl (Some cu) mg dense_out args axs extra eaxs idx in if Nat.eqb (prod (sh r)) (prod so) then Some (reshape so r) else None) = Some r ->
  forall brd, brdcast_shape (leaves_of args axs extra eaxs) = Some brd -> so = brd ++ C ->
  sh r = so /\ forall b, inb b brd -> exists args' es idx' r0, sliced n args axs b args' /\ mslices eaxs extra b es /\ cu args' es mg idx' = Some r0 /\
    forall c, inb c C -> at_ r (b ++ c) = at_ r0 c.
Proof.
  intros [H1 H2 H3 H4 H5 H6 H7] HC so H brd Hbrd Eso. destruct (batched_eval f c2r fl (Some cu) mg dense_out args axs extra eaxs idx) as [r'|] eqn:E; [|discriminate]. cbn [bind] in H.
  destruct (Nat.eqb _ _); [|discriminate]. injection H as <-. split; [reflexivity|]. intros b Hb.
  destruct (@batched_eval_raw _ _ n f c2r fl (Some cu) mg dense_out args axs extra eaxs idx brd r' H3 H5 H6 Hbrd E) as (_ & G1 & G2). cbn zeta in G1, G2.
  set (ki := keep_idx (leaves_of args axs extra eaxs) brd) in *.
  assert (Hsr : sh r' = permute ki brd ++ C).
  { apply (G2 C b Hb). intros b0 args' es r0 Hb0 (S1 & S2 & Ht). unfold hess_transform in Ht. eapply HC; exact Ht. }
  destruct (G1 b Hb) as (args' & es & r0 & (S1 & S2 & Ht) & Hat). unfold hess_transform in Ht.
  eexists args', es, _, r0. split; [exact S1|]. split; [exact S2|]. split; [exact Ht|]. intros c Hc.
  pose proof (@leaves_ok _ _ args axs extra eaxs H5 H6) as Hok.
  assert (Hone : forall k, (k < length brd)%nat -> ~ In k ki -> nth k brd 0%nat = 1%nat) by (intros k Hk Hn; apply (@brd_one _ _ k Hbrd Hok Hk Hn)).
  assert (Hkb : inb (permute ki b) (permute ki brd)) by (apply permute_inb; auto; intros d Hd; apply keep_idx_In in Hd; auto).
  rewrite <- Hat. fold so. rewrite Eso. apply reshape_ravel_eq; rewrite Hsr; [apply inb_app; auto|].
  rewrite !ravel_app by (apply inb_length; auto). f_equal. f_equal. symmetry.
  destruct (@ravel_keep brd (fun i => existsb (fun l => is_some (nth i (vmap_sequence (fst l) brd (snd l)) None)) (leaves_of args axs extra eaxs)) b Hb) as [E1 _]; [exact Hone|]. exact E1.
Qed.
(* The second-order term of a function with a custom rule, no shortcut flag and no DOT_PRODUCT flag: nothing shared (zeros(())), or at every batch
   index b exactly what the rule returns for the slices of the (possibly densified) arguments at b. *)
Theorem custom_verbatim n f c2r fl cu extra axs eaxs mg th args r C brd : setup n f mg args axs extra eaxs ->
  has LINEAR fl = false -> has LINEAR_IN_ONE fl = false -> has LINEAR_IN_FIRST fl = false ->
  (forall args' es idx' r0, cu args' es mg idx' = Some r0 -> sh r0 = C) ->
  brdcast_shape (leaves_of args axs extra eaxs) = Some brd -> sh (o_fwd f (mg _ (xs_of args) extra)) = brd ++ C ->
  jhj_trace f c2r fl (Some cu) extra axs eaxs mg th args = Some r ->
  (r = nd0 /\ any_weak args = true /\ ((exists p, inb p (brd ++ C)) -> forall a i q, (a < length args)%nat -> (i < n)%nat -> inb q (sh (lx (nth a args la0))) -> jent (ljac (nth a args la0)) i q = 0)) \/
  exists args1, (args1 = args \/ args_dense args = Some args1) /\ sh r = brd ++ C /\
  forall b, inb b brd -> exists args' es idx' r0, sliced n args1 axs b args' /\ mslices eaxs extra b es /\ cu args' es mg idx' = Some r0 /\
    forall c, inb c C -> at_ r (b ++ c) = at_ r0 c.
Proof.
  intros HS HL HL1 HLF HC Hbrd Eso H. unfold jhj_trace in H. rewrite HL, HL1, HLF in H. cbn [andb] in H.
  assert (HM : has MULTIPLICATION fl = false) by (destruct (has MULTIPLICATION fl) eqn:E; auto; apply has_mult_one in E; congruence).
  pose proof (has_dot_mult _ HM) as HD. unfold vmapped_jhj in H. rewrite HD in H. cbn [andb] in H.
  destruct (find_out_idx args axs fl th) as [[oi dense_out]|] eqn:EF; [|discriminate]. cbn [bind] in H.
  destruct (dense_out && negb (has SPARSE_JHJ fl)) eqn:Ed.
  - destruct (args_dense args) as [d|] eqn:EA; [|discriminate]. cbn [bind] in H. right. exists d. split; [auto|].
    destruct (@args_dense_spec _ _ n args d (su_n HS) (su_wf HS) EA) as (Ld & Xd & _).
    assert (Hbrd' : brdcast_shape (leaves_of d axs extra eaxs) = Some brd).
    { rewrite <- Hbrd. f_equal. unfold leaves_of. f_equal. f_equal. transitivity (map (@sh A) (xs_of d)); [unfold xs_of; rewrite map_map; reflexivity|]. rewrite Xd. unfold xs_of. rewrite map_map. reflexivity. }
    pose proof (setup_dense HS EA) as HS'.
    rewrite <- Xd in H. destruct (@eval_verbatim n f c2r fl cu mg dense_out d axs extra eaxs None r C HS' HC H brd Hbrd') as [V1 V2]; [rewrite Xd; exact Eso|].
    rewrite Xd, Eso in V1. split; auto.
  - cbn [bind] in H. destruct oi as [o|].
    + destruct (Nat.eqb_spec (rows o) 0) as [E0|E0].
      * left. injection H as <-. split; auto. split; [unfold find_out_idx in EF; destruct (any_weak args); auto; cbn in EF; discriminate|].
        rewrite <- Eso. exact (@no_idx_zero _ _ n f mg args axs extra eaxs fl th o dense_out HS HL1 EF E0).
      * right. exists args. split; [auto|]. destruct (@eval_verbatim n f c2r fl cu mg dense_out args axs extra eaxs (Some o) r C HS HC H brd Hbrd Eso) as [V1 V2]. rewrite Eso in V1. auto.
    + right. exists args. split; [auto|]. destruct (@eval_verbatim n f c2r fl cu mg dense_out args axs extra eaxs None r C HS HC H brd Hbrd Eso) as [V1 V2]. rewrite Eso in V1. auto.
Qed.
(* a custom rule is never consulted when a shortcut flag applies *)
Theorem custom_ignored_if_linear f c2r fl cu extra axs eaxs mg th args : has LINEAR fl = true -> jhj_trace (RA := RA) f c2r fl (Some cu) extra axs eaxs mg th args = Some nd0.
Proof. intros H. unfold jhj_trace. rewrite H. reflexivity. Qed.
End Verb.
