(* HessForms.v : closed forms of the second-order term for the registered products and quotients, as one would write them on paper. *)
From Verif Require Export Split.
Set Implicit Arguments.
Definition mgtt : mergefn := merge_of [true; true].

Section Forms.
Context {A : Type} {RA : CRing A}.
Add Ring Aring_HF : (@rth A RA).
Open Scope cr_scope.

Lemma sum_at (s : shape) u (F : ix -> A) : inb u s -> (forall q, inb q s -> q <> u -> F q = 0) -> sumL (allix s) F = F u.
Proof. intros Hu HF. apply sumL_single; [apply allix_NoDup|apply allix_spec; auto|]. intros q Hq Hne. apply HF; auto. apply allix_spec; auto. Qed.

(* elementwise functions: only the broadcast position of every argument contributes *)
Lemma quad_ew phi d h (xs : list (nd A)) p (u v : nat -> ix -> A) : bshapes (map (@sh A) xs) <> None -> inb p (ew_shape xs) ->
  quad (ew_op phi d h) xs p u v = sumn (length xs) (fun a => sumn (length xs) (fun b =>
    h (ew_vals xs p) a b * (u a (bproj (sh (nth a xs nd0)) p) * v b (bproj (sh (nth b xs nd0)) p)))).
Proof.
  intros Hb Hp. unfold ew_shape in Hp. destruct (bshapes (map (@sh A) xs)) as [s|] eqn:E; [|congruence]. destruct (bshapes_spec _ E) as [Hs _].
  assert (Hi : forall a, (a < length xs)%nat -> inb (bproj (sh (nth a xs nd0)) p) (sh (nth a xs nd0))).
  { intros a Ha. apply (@bproj_inb _ s); auto. apply Hs. apply in_map. apply nth_In; auto. }
  unfold quad. apply sumn_ext. intros a Ha. rewrite (@sum_at _ _ _ (Hi a Ha)).
  - apply sumn_ext. intros b Hb'. rewrite (@sum_at _ _ _ (Hi b Hb')).
    + cbn [ew_op o_h]. rewrite !ixeqb_refl. reflexivity.
    + intros q Hq Hne. cbn [ew_op o_h]. rewrite (@ixeqb_neq q) by auto. rewrite andb_false_r. ring.
  - intros q Hq Hne. apply sumn_zero. intros b Hb'. apply sumL_zero. intros r Hr. cbn [ew_op o_h]. rewrite (@ixeqb_neq q) by auto. cbn [andb]. ring.
Qed.
Lemma merged_tt (f : op A) (a b : lapl A) n p : hspec n (merged f mgtt 2 []) [a; b] p = hspec n f [a; b] p.
Proof. unfold hspec, quad, merged. cbn. reflexivity. Qed.

(* two vectors give a scalar *)
Lemma dotlast_scalar (x y : lapl A) px py k : sh (lx x) = px ++ [k] -> sh (lx y) = py ++ [k] -> length px = length py -> bshape2 px py <> None ->
  ndim (o_fwd op_dotlast (mgtt (xs_of [x; y]) [])) = length px /\
  forall ys, length ys = 2%nat -> (forall a, (a < 2)%nat -> sh (nth a ys nd0) = [last (sh (lx (nth a [x; y] la0))) 0%nat]) -> sh (o_fwd op_dotlast (mgtt ys [])) = [].
Proof.
  intros Hx Hy HL HB. split.
  - change (mgtt (xs_of [x; y]) []) with [lx x; lx y]. unfold ndim. cbn [op_dotlast o_fwd sh map]. rewrite Hx, Hy, !removelast_snoc. unfold bshapes. cbn [fold_left]. change (bshape2 [] px) with (option_map (@rev nat) (Some (rev px))). cbn [option_map]. rewrite rev_involutive.
    destruct (bshape2 px py) as [B|] eqn:E; [|congruence]. destruct (bshape2_ub _ _ E) as [U1 _]. apply bto_length in U1.
    pose proof (@bshapes_len [px; py] B (length px)) as G. assert (E2 : bshapes [px; py] = Some B).
    { unfold bshapes. cbn [fold_left]. change (bshape2 [] px) with (option_map (@rev nat) (Some (rev px))). cbn [option_map]. rewrite rev_involutive. exact E. }
    specialize (G E2). assert (length B <= length px)%nat; [|lia]. apply G. intros t [<-|[<-|[]]]; lia.
  - intros ys L HS. destruct ys as [|u [|v [|? ?]]]; try discriminate L. pose proof (HS 0%nat ltac:(lia)) as E0. pose proof (HS 1%nat ltac:(lia)) as E1. cbn [nth] in E0, E1.
    change (mgtt [u; v] []) with [u; v]. cbn [op_dotlast o_fwd sh map]. rewrite E0, E1. reflexivity.
Qed.

(* x * y:  2 * sum_i d_i x * d_i y *)
Theorem hspec_mul n (a b : lapl A) p : bshapes [sh (lx a); sh (lx b)] <> None -> inb p (sh (o_fwd op_mul [lx a; lx b])) ->
  hspec n (merged op_mul mgtt 2 []) [a; b] p = (1 + 1) * sumn n (fun i => jent (ljac a) i (bproj (sh (lx a)) p) * jent (ljac b) i (bproj (sh (lx b)) p)).
Proof.
  intros Hb Hp. rewrite merged_tt. unfold hspec, sumn at 1 2. rewrite <- sumL_scale. apply sumL_ext. intros i _.
  unfold op_mul. rewrite quad_ew; [|exact Hb|exact Hp]. cbn [xs_of map length]. rewrite !sumn2. cbn [nth]. ring.
Qed.
(* einsum('...i,...i->...', x, y):  2 * sum_i sum_k d_i x[..k] * d_i y[..k] *)
Lemma sum_snoc (pre : shape) K u (F : ix -> A) : inb u pre -> (forall q k, inb q pre -> (k < K)%nat -> q <> u -> F (q ++ [k]) = 0) ->
  sumL (allix (pre ++ [K])) F = sumn K (fun k => F (u ++ [k])).
Proof.
  intros Hu HF. rewrite sum_allix_app. rewrite (@sum_at pre u); auto.
  - rewrite sum_allix_cons. apply sumn_ext. intros k Hk. cbn. ring.
  - intros q Hq Hne. apply sumL_zero. intros t Ht. apply allix_spec in Ht. inversion Ht as [|k K' t' s' Hk Ht' E1 E2]; subst. inversion Ht'; subst. apply HF; auto.
Qed.
Lemma sumn_pick K k (F : nat -> A) : (k < K)%nat -> sumn K (fun l => if Nat.eqb k l then F l else 0) = F k.
Proof. intros Hk. rewrite (@sumn_single _ _ K k); auto; [rewrite Nat.eqb_refl; auto|]. intros i Hi Hne. destruct (Nat.eqb_spec k i); [congruence|auto]. Qed.
Theorem hspec_dotlast n (a b : lapl A) px py K p : sh (lx a) = px ++ [K] -> sh (lx b) = py ++ [K] -> bshapes [px; py] <> None ->
  inb p (sh (o_fwd op_dotlast [lx a; lx b])) ->
  hspec n (merged op_dotlast mgtt 2 []) [a; b] p =
    (1 + 1) * sumn n (fun i => sumn K (fun k => jent (ljac a) i (bproj px p ++ [k]) * jent (ljac b) i (bproj py p ++ [k]))).
Proof.
  intros Ha Hb HB Hp. rewrite merged_tt. unfold hspec, sumn at 1 2. rewrite <- sumL_scale. apply sumL_ext. intros i _.
  cbn [op_dotlast o_fwd sh map] in Hp. rewrite Ha, Hb, !removelast_snoc in Hp. destruct (bshapes [px; py]) as [s|] eqn:E; [|congruence]. destruct (bshapes_spec _ E) as [Hs _].
  assert (Ia : inb (bproj px p) px) by (apply (@bproj_inb _ s); auto; apply Hs; cbn; auto).
  assert (Ib : inb (bproj py p) py) by (apply (@bproj_inb _ s); auto; apply Hs; cbn; auto).
  unfold quad. cbn [xs_of map length]. rewrite sumn2. cbn [nth]. rewrite Ha, Hb.
  assert (Z1 : forall x c q, c <> nth x [bproj px p; bproj py p] [] -> forall y r, (x < 2)%nat -> o_h op_dotlast [lx a; lx b] p x (c ++ [q]) y r = 0).
  { intros x c q Hc y r Hx. cbn [op_dotlast o_h]. rewrite removelast_snoc. destruct x as [|[|?]]; [| |lia]; cbn [nth] in Hc |- *; rewrite ?Ha, ?Hb, !removelast_snoc, (@ixeqb_neq c) by auto; reflexivity. }
  assert (Z2 : forall y c q, c <> nth y [bproj px p; bproj py p] [] -> forall x r, (y < 2)%nat -> o_h op_dotlast [lx a; lx b] p x r y (c ++ [q]) = 0).
  { intros x c q Hc y r Hx. cbn [op_dotlast o_h]. rewrite removelast_snoc. destruct x as [|[|?]]; [| |lia]; cbn [nth] in Hc |- *; rewrite ?Ha, ?Hb, !removelast_snoc, (@ixeqb_neq c) by auto; rewrite andb_false_r; reflexivity. }
  assert (HH : forall x y k l, (x < 2)%nat -> (y < 2)%nat -> o_h op_dotlast [lx a; lx b] p x (nth x [bproj px p; bproj py p] [] ++ [k]) y (nth y [bproj px p; bproj py p] [] ++ [l]) =
     if Nat.eqb k l then (if Nat.eqb x y then 0 else 1) else 0).
  { intros x y k l Hx Hy. cbn [op_dotlast o_h]. rewrite !removelast_snoc, !last_last. destruct x as [|[|?]]; [| |lia]; destruct y as [|[|?]]; try lia; cbn [nth]; rewrite ?Ha, ?Hb, !removelast_snoc, !ixeqb_refl; cbn [andb Nat.eqb]; reflexivity. }
  assert (ZZ : forall (x y z : A), x = 0 -> x * (y * z) = 0) by (intros x y z ->; ring).
  rewrite (@sum_snoc px K (bproj px p)); [|auto|].
  2:{ intros q k Hq Hk Hne. rewrite sumn2. cbn [nth]. rewrite Ha, Hb, !sumL_zero; [ring| |]; intros r _; apply ZZ, Z1; auto. }
  rewrite (@sum_snoc py K (bproj py p)); [|auto|].
  2:{ intros q k Hq Hk Hne. rewrite sumn2. cbn [nth]. rewrite Ha, Hb, !sumL_zero; [ring| |]; intros r _; apply ZZ, Z1; auto. }
  transitivity (sumn K (fun k => jent (ljac a) i (bproj px p ++ [k]) * jent (ljac b) i (bproj py p ++ [k])) + sumn K (fun k => jent (ljac a) i (bproj px p ++ [k]) * jent (ljac b) i (bproj py p ++ [k]))).
  2:{ ring. }
  f_equal.
  - apply sumn_ext. intros k Hk. rewrite sumn2. cbn [nth]. rewrite Ha, Hb. rewrite (@sum_snoc px K (bproj px p)); [|auto|intros q l Hq Hl Hne; apply ZZ, Z2; auto].
    rewrite (@sum_snoc py K (bproj py p)); [|auto|intros q l Hq Hl Hne; apply ZZ, Z2; auto].
    rewrite (@sumn_zero _ _ K).
    2:{ intros l Hl. apply ZZ. pose proof (HH 0%nat 0%nat k l ltac:(lia) ltac:(lia)) as E0. cbn [nth] in E0. rewrite E0. destruct (Nat.eqb k l); reflexivity. }
    transitivity (0 + sumn K (fun l => if Nat.eqb k l then (fun l => jent (ljac a) i (bproj px p ++ [k]) * jent (ljac b) i (bproj py p ++ [l])) l else 0)).
    { f_equal. apply sumn_ext. intros l Hl. pose proof (HH 0%nat 1%nat k l ltac:(lia) ltac:(lia)) as E0. cbn [nth] in E0. rewrite E0. destruct (Nat.eqb k l); cbn [Nat.eqb]; ring. }
    rewrite sumn_pick by auto. ring.
  - apply sumn_ext. intros k Hk. rewrite sumn2. cbn [nth]. rewrite Ha, Hb. rewrite (@sum_snoc px K (bproj px p)); [|auto|intros q l Hq Hl Hne; apply ZZ, Z2; auto].
    rewrite (@sum_snoc py K (bproj py p)); [|auto|intros q l Hq Hl Hne; apply ZZ, Z2; auto].
    rewrite (@sumn_zero _ _ K (fun k0 => o_h _ _ _ 1%nat _ 1%nat _ * _)).
    2:{ intros l Hl. apply ZZ. pose proof (HH 1%nat 1%nat k l ltac:(lia) ltac:(lia)) as E0. cbn [nth] in E0. rewrite E0. destruct (Nat.eqb k l); reflexivity. }
    transitivity (sumn K (fun l => if Nat.eqb k l then (fun l => jent (ljac b) i (bproj py p ++ [k]) * jent (ljac a) i (bproj px p ++ [l])) l else 0) + 0).
    { f_equal. apply sumn_ext. intros l Hl. pose proof (HH 1%nat 0%nat k l ltac:(lia) ltac:(lia)) as E0. cbn [nth] in E0. rewrite E0. destruct (Nat.eqb k l); cbn [Nat.eqb]; ring. }
    rewrite sumn_pick by auto. ring.
Qed.
(* off_diagblock_jac_hessian_jac on scalars with one materialised row *)
Theorem off_diag_scalar n (f : op A) (a b : lapl A) idx r : (0 < n)%nat -> awf n a -> awf n b -> sh (lx a) = [] -> sh (lx b) = [] -> idx_covers n [a; b] idx ->
  (forall x, In x [0; 1]%nat -> linear_in f [lx a; lx b] x) ->
  (forall p, inb p (sh (o_fwd f [lx a; lx b])) -> o_h f [lx a; lx b] p 0%nat [] 1%nat [] = o_h f [lx a; lx b] p 1%nat [] 0%nat []) ->
  (forall l, get_reduced_jacobians [ljac a; ljac b] idx = Some l -> forall x, In x l -> rows x = 1%nat) ->
  off_diag_jhj f [a; b] idx = Some r ->
  sh r = sh (o_fwd f [lx a; lx b]) /\ forall p, inb p (sh r) -> at_ r p = hspec n f [a; b] p.
Proof.
  intros Hn Wa Wb Sa Sb Hc Hlin Hsym Hone H. unfold off_diag_jhj in H. unfold jac_jacT in H.
  destruct (get_reduced_jacobians [ljac a; ljac b] idx) as [l|] eqn:Eg; [|discriminate]. cbn [bind] in H.
  assert (Hw : forall x, In x [a; b] -> awf n x) by (intros x [<-|[<-|[]]]; auto).
  destruct (@red_sum _ _ n [a; b] idx l Hn ltac:(discriminate) Hw Hc Eg) as (R & g & [Lg Hg] & Hs).
  cbn [xs_of map length] in Lg, Hg. destruct l as [|x [|y [|? ?]]]; try discriminate.
  destruct (Hg 0%nat ltac:(lia)) as [X1 X2]. destruct (Hg 1%nat ltac:(lia)) as [Y1 Y2]. cbn [nth] in X1, X2, Y1, Y2. rewrite Sa in X1, X2. rewrite Sb in Y1, Y2. cbn [prod] in X1, Y1.
  assert (HR : R = 1%nat) by (pose proof (Hone _ eq_refl x (or_introl eq_refl)) as E; unfold rows in E; rewrite X1 in E; exact E). subst R.
  unfold matmul in H. cbn [transpose sh] in H. rewrite X1, Y1 in H. cbn -[at_ einsum2 transpose] in H. rewrite Sa, Sb in H. cbn [prod] in H.
  change (bshape2 [1%nat; 1%nat] [1%nat; 1%nat]) with (Some [1%nat; 1%nat]) in H. cbn [bind] in H.
  apply (f_equal (fun o => match o with Some t => t | None => nd0 end)) in H. cbv beta iota in H. rewrite <- H. clear H r. split; [reflexivity|]. intros p Hp. cbn [at_ sh] in Hp |- *.
  rewrite (@einsum2_same _ _ _ _ 1 1) by reflexivity. rewrite !sumn1.
  assert (ET : at_ (transpose [1%nat; 0%nat] y) [0%nat; 0%nat] = at_ y [0%nat; 0%nat]) by (unfold transpose, ndim; cbn [at_]; rewrite Y1; reflexivity).
  change (o_h f [lx a; lx b] p 0 (unravel_ix [] (nth 0 [0; 0] 0)) 1 (unravel_ix [] (nth 1 [0; 0] 0)))%nat with (o_h f [lx a; lx b] p 0 [] 1 [])%nat.
  change (at_ (Nd [1; 1]%nat (fun i => at_ x [nth 0 i 0; 0]%nat * at_ (transpose [1; 0]%nat y) [0; nth 1 i 0]%nat + 0)) [0; 0]%nat) with (at_ x [0; 0]%nat * at_ (transpose [1; 0]%nat y) [0; 0]%nat + 0).
  rewrite ET. cbn [at_ nth unravel_ix].
  set (h := o_h f [lx a; lx b] p 0%nat [] 1%nat []).
  set (F := fun u : nat -> ix -> A => (1 + 1) * (h * (u 0%nat [] * u 1%nat []))).
  transitivity (sumn 1 (fun k => F (fun a q => g a k q))).
  { rewrite sumn1. unfold F. rewrite <- (X2 0%nat []), <- (Y2 0%nat []) by (auto; constructor). cbn [ravel_ix]. fold h. ring. }
  rewrite (Hs F).
  - unfold hspec. apply sumn_ext. intros i Hi. unfold F, quad. cbn [xs_of map length]. rewrite sumn2. cbn [nth]. rewrite Sa, Sb. cbn [allix sumL]. rewrite !sumn2. cbn [nth]. rewrite Sa, Sb. cbn [allix sumL].
    rewrite <- (Hsym p Hp). fold h.
    rewrite (Hlin 0%nat (or_introl eq_refl) p [] []) by (auto; cbn [nth]; rewrite ?Sa; constructor). rewrite (Hlin 1%nat (or_intror (or_introl eq_refl)) p [] []) by (auto; cbn [nth]; rewrite ?Sb; constructor). ring.
  - intros u v Huv. unfold F. rewrite (Huv 0%nat []), (Huv 1%nat []); auto; try (cbn; lia); cbn [nth]; rewrite ?Sa, ?Sb; constructor.
  - intros u Hu. unfold F. rewrite (Hu 0%nat []); [ring|cbn; lia|cbn [nth]; rewrite Sa; constructor].
Qed.
Context (inv : A -> A).
(* x / y:  -2/y^2 sum_i d_i x d_i y + 2 x/y^3 sum_i (d_i y)^2 *)
Theorem hspec_div n (a b : lapl A) p : bshapes [sh (lx a); sh (lx b)] <> None -> inb p (sh (o_fwd (op_div inv) [lx a; lx b])) ->
  let x := at_ (lx a) (bproj (sh (lx a)) p) in let iy := inv (at_ (lx b) (bproj (sh (lx b)) p)) in
  hspec n (merged (op_div inv) mgtt 2 []) [a; b] p =
    - ((1 + 1) * (iy * iy)) * sumn n (fun i => jent (ljac a) i (bproj (sh (lx a)) p) * jent (ljac b) i (bproj (sh (lx b)) p)) +
    (1 + 1) * x * (iy * (iy * iy)) * sumn n (fun i => jent (ljac b) i (bproj (sh (lx b)) p) * jent (ljac b) i (bproj (sh (lx b)) p)).
Proof.
  intros Hb Hp x iy. rewrite merged_tt. unfold hspec, sumn at 1 2 3. rewrite <- !sumL_scale, <- sumL_add. apply sumL_ext. intros i _.
  unfold op_div. rewrite quad_ew; [|exact Hb|exact Hp]. cbn [xs_of map length]. rewrite !sumn2. cbn [nth ew_vals map]. fold x iy. unfold two. ring.
Qed.
(* c / y with a constant numerator:  2 c/y^3 sum_i (d_i y)^2 *)
Definition mgft : mergefn := merge_of [false; true].
Theorem hspec_div_den n (c : nd A) (b : lapl A) p : bshapes [sh c; sh (lx b)] <> None -> inb p (sh (o_fwd (op_div inv) [c; lx b])) ->
  let x := at_ c (bproj (sh c) p) in let iy := inv (at_ (lx b) (bproj (sh (lx b)) p)) in
  hspec n (merged (op_div inv) mgft 1 [c]) [b] p =
    (1 + 1) * x * (iy * (iy * iy)) * sumn n (fun i => jent (ljac b) i (bproj (sh (lx b)) p) * jent (ljac b) i (bproj (sh (lx b)) p)).
Proof.
  intros Hb Hp x iy. unfold hspec, sumn at 1 2. rewrite <- sumL_scale. apply sumL_ext. intros i _.
  assert (Hi : inb (bproj (sh (lx b)) p) (sh (lx b))).
  { cbn [op_div ew_op o_fwd sh] in Hp. unfold ew_shape in Hp. cbn [map] in Hp. destruct (bshapes [sh c; sh (lx b)]) as [s|] eqn:E; [|congruence]. destruct (bshapes_spec _ E) as [Hs _].
    apply (@bproj_inb _ s); auto. apply Hs. cbn; auto. }
  unfold quad. cbn [xs_of map length]. rewrite !sumn1. cbn [nth]. rewrite (@sum_at _ _ _ Hi).
  - rewrite sumn1. cbn [nth]. rewrite (@sum_at _ _ _ Hi).
    + cbn. rewrite !ixeqb_refl. cbn. fold x iy. unfold two. ring.
    + intros q Hq Hne. cbn. rewrite (@ixeqb_neq q) by auto. rewrite andb_false_r. ring.
  - intros q Hq Hne. rewrite sumn1. cbn [nth]. apply sumL_zero. intros r Hr. cbn. rewrite (@ixeqb_neq q) by auto. cbn. ring.
Qed.
End Forms.
