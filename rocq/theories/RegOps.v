(* RegOps.v : the functions of the registry (wrapped_functions.py:297-442) that CalcPrims.v leaves abstract -- reduce_prod, reduce_max, reduce_min, cumsum, scatter_add,
   scatter_max, scatter_min, atan2 -- with their derivatives.  Each output element is a function of a list of elements of the arguments. *)
From Coq Require Import Reals Lra.
From Coquelicot Require Import Coquelicot.
From Verif Require Export CalcPrims LayoutCalc.
Set Implicit Arguments.
Open Scope nat_scope.

Section Gop.
Context {A : Type} {RA : CRing A} {JA : @Jet A RA}.
Add Ring Aring_RegOps : (@rth A RA).
Local Open Scope nat_scope.
Local Open Scope cr_scope.
(* an element of the argument list: argument number and position (no /repo code) *)
Definition epos := (nat * ix)%type.
(* equality of such positions *)
Definition eposb (u v : epos) : bool := Nat.eqb (fst u) (fst v) && ixeqb (snd u) (snd v).
(* the elements at the given positions *)
Definition elems (xs : list (nd A)) (l : list epos) : list A := map (fun u => at_ (nth (fst u) xs nd0) (snd u)) l.
(* output element p is F of the elements at the positions [grp shapes p]; F1 and F2 are the partial derivatives of F (wrapped_functions.py:297-442: what jax.lax's
   reductions, cumulative and scatter operations compute) *)
Definition gop (s : list shape -> shape) (grp : list shape -> ix -> list epos) (F : list A -> A) (F1 : list A -> nat -> A) (F2 : list A -> nat -> nat -> A) : op A :=
  Op (fun xs => let ss := map (@sh A) xs in Nd (s ss) (fun p => F (elems xs (grp ss p))))
     (fun xs p a q => let G := grp (map (@sh A) xs) p in sumn (length G) (fun k => if eposb (nth k G (0%nat, [])) (a, q) then F1 (elems xs G) k else 0))
     (fun xs p a q b r => let G := grp (map (@sh A) xs) p in sumn (length G) (fun k => sumn (length G) (fun l =>
        if eposb (nth k G (0%nat, [])) (a, q) && eposb (nth l G (0%nat, [])) (b, r) then F2 (elems xs G) k l else 0))).
(* the positions lie inside the arguments *)
Definition grp_wf (s : list shape -> shape) (grp : list shape -> ix -> list epos) (ss : list shape) : Prop :=
  forall p, inb p (s ss) -> forall u, In u (grp ss p) -> fst u < length ss /\ inb (snd u) (nth (fst u) ss []).
Lemma eposb_eq u v : eposb u v = true <-> u = v.
Proof.
  destruct u as [a q], v as [b r]. unfold eposb. cbn [fst snd]. rewrite andb_true_iff, Nat.eqb_eq, ixeqb_eq. split; [intros [-> ->]; reflexivity|intros [=]; auto].
Qed.
Lemma eposb_no u v : u <> v -> eposb u v = false.
Proof. intros H. destruct (eposb u v) eqn:E; [|reflexivity]. apply eposb_eq in E. congruence. Qed.
Lemma pick_one (xs : list (nd A)) (u : epos) (v : nat -> ix -> A) : fst u < length xs -> inb (snd u) (sh (nth (fst u) xs nd0)) ->
  sumn (length xs) (fun a => sumL (allix (sh (nth a xs nd0))) (fun q => if eposb u (a, q) then v a q else 0)) = v (fst u) (snd u).
Proof.
  intros H1 H2. rewrite (@sumn_single A RA _ (fst u)); [|exact H1|].
  - rewrite (@sumL_single A RA _ (allix (sh (nth (fst u) xs nd0))) (snd u)).
    + rewrite (proj2 (eposb_eq u (fst u, snd u))) by (destruct u; reflexivity). reflexivity.
    + apply allix_NoDup.
    + apply allix_spec. exact H2.
    + intros q _ Hne. rewrite eposb_no; [reflexivity|]. destruct u; cbn in *. congruence.
  - intros a _ Hne. apply (@sumL_zero A RA). intros q _. rewrite eposb_no; [reflexivity|]. destruct u; cbn in *. congruence.
Qed.
Section One.
Context (s : list shape -> shape) (grp : list shape -> ix -> list epos) (F : list A -> A) (F1 : list A -> nat -> A) (F2 : list A -> nat -> nat -> A).
Notation f := (gop s grp F F1 F2).
Lemma wf_at (xs : list (nd A)) p k : grp_wf s grp (map (@sh A) xs) -> inb p (s (map (@sh A) xs)) -> let G := grp (map (@sh A) xs) p in k < length G ->
  fst (nth k G (0%nat, [])) < length xs /\ inb (snd (nth k G (0%nat, []))) (sh (nth (fst (nth k G (0%nat, []))) xs nd0)).
Proof.
  intros Hw Hp G Hk. destruct (Hw p Hp (nth k G (0%nat, []))) as [H1 H2]; [apply nth_In; exact Hk|]. rewrite map_length in H1. split; [exact H1|]. rewrite (@nth_map_in _ _ (@sh A) xs _ nd0 []) in H2 by exact H1. exact H2.
Qed.
Lemma gop_chain (xs : list (nd A)) p v : grp_wf s grp (map (@sh A) xs) -> inb p (s (map (@sh A) xs)) -> let G := grp (map (@sh A) xs) p in
  chain1 f xs p v = sumn (length G) (fun k => F1 (elems xs G) k * v (fst (nth k G (0%nat, []))) (snd (nth k G (0%nat, [])))).
Proof.
  intros Hw Hp G. unfold chain1. cbn [gop o_d]. fold G.
  transitivity (sumn (length G) (fun k => sumn (length xs) (fun a => sumL (allix (sh (nth a xs nd0))) (fun q => if eposb (nth k G (0%nat, [])) (a, q) then F1 (elems xs G) k * v a q else 0)))).
  - symmetry. unfold sumn. rewrite (@sumL_swap A RA _ _ (seq 0 (length G)) (seq 0 (length xs))). apply sumL_ext. intros a _. rewrite (@sumL_swap A RA _ _ (seq 0 (length G)) (allix (sh (nth a xs nd0)))). apply sumL_ext. intros q _. rewrite <- (@sumL_scale_r A RA). apply sumL_ext. intros k _. destruct (eposb _ _); ring.
  - apply sumn_ext. intros k Hk. destruct (@wf_at xs p k Hw Hp Hk) as [K1 K2]. exact (@pick_one xs (nth k G (0%nat, [])) (fun a q => F1 (elems xs G) k * v a q) K1 K2).
Qed.
Lemma gop_quad (xs : list (nd A)) p u v : grp_wf s grp (map (@sh A) xs) -> inb p (s (map (@sh A) xs)) -> let G := grp (map (@sh A) xs) p in
  quad f xs p u v = sumn (length G) (fun k => sumn (length G) (fun l => F2 (elems xs G) k l * (u (fst (nth k G (0%nat, []))) (snd (nth k G (0%nat, []))) * v (fst (nth l G (0%nat, []))) (snd (nth l G (0%nat, [])))))).
Proof.
  intros Hw Hp G. unfold quad. cbn [gop o_h]. fold G.
  transitivity (sumn (length G) (fun k => sumn (length xs) (fun a => sumL (allix (sh (nth a xs nd0))) (fun q => if eposb (nth k G (0%nat, [])) (a, q) then
     sumn (length G) (fun l => sumn (length xs) (fun b => sumL (allix (sh (nth b xs nd0))) (fun r => if eposb (nth l G (0%nat, [])) (b, r) then F2 (elems xs G) k l * (u a q * v b r) else 0))) else 0)))).
  - set (E := elems xs G). symmetry. unfold sumn at 1 2. rewrite (@sumL_swap A RA _ _ (seq 0 (length G)) (seq 0 (length xs))). unfold sumn at 2. apply sumL_ext. intros a _. rewrite (@sumL_swap A RA _ _ (seq 0 (length G)) (allix (sh (nth a xs nd0)))). apply sumL_ext. intros q _.
    transitivity (sumL (seq 0 (length G)) (fun k => sumn (length xs) (fun b => sumL (allix (sh (nth b xs nd0))) (fun r => sumn (length G) (fun l => (if eposb (nth k G (0%nat, [])) (a, q) && eposb (nth l G (0%nat, [])) (b, r) then F2 E k l else 0) * (u a q * v b r)))))).
    + apply sumL_ext. intros k _. destruct (eposb (nth k G (0%nat, [])) (a, q)); cbn [andb].
      * unfold sumn. rewrite (@sumL_swap A RA). apply sumL_ext. intros b _. rewrite (@sumL_swap A RA). apply sumL_ext. intros r _. apply sumL_ext. intros l _. destruct (eposb _ _); ring.
      * symmetry. apply (@sumn_zero A RA). intros b _. apply (@sumL_zero A RA). intros r _. apply (@sumn_zero A RA). intros l _. ring.
    + unfold sumn. rewrite (@sumL_swap A RA). apply sumL_ext. intros b _. rewrite (@sumL_swap A RA). apply sumL_ext. intros r _. rewrite <- (@sumL_scale_r A RA). apply sumL_ext. intros k _. rewrite <- (@sumL_scale_r A RA). reflexivity.
  - apply sumn_ext. intros k Hk. destruct (@wf_at xs p k Hw Hp Hk) as [K1 K2].
    refine (eq_trans (@pick_one xs (nth k G (0%nat, [])) (fun a q => sumn (length G) (fun l => sumn (length xs) (fun b => sumL (allix (sh (nth b xs nd0))) (fun r => if eposb (nth l G (0%nat, [])) (b, r) then F2 (elems xs G) k l * (u a q * v b r) else 0)))) K1 K2) _).
    cbv beta. apply sumn_ext. intros l Hl. destruct (@wf_at xs p l Hw Hp Hl) as [L1 L2].
    exact (@pick_one xs (nth l G (0%nat, [])) (fun b r => F2 (elems xs G) k l * (u (fst (nth k G (0%nat, []))) (snd (nth k G (0%nat, []))) * v b r)) L1 L2).
Qed.
(* the function is twice differentiable where F is *)
Lemma gop_smooth (xs : list (nd A)) : grp_wf s grp (map (@sh A) xs) -> (forall p, inb p (s (map (@sh A) xs)) -> smooth_fun F F1 F2 (elems xs (grp (map (@sh A) xs) p))) -> smooth f xs.
Proof.
  intros Hw HP D H W HC. pose proof (curves_shapes HC) as HS. split.
  - generalize HS. apply near_imp. intros t E. cbn [gop o_fwd sh]. rewrite E. reflexivity.
  - intros p Hp. cbn [gop o_fwd sh] in Hp. rewrite gop_chain, gop_chain, gop_quad by auto. cbn [gop o_fwd at_]. set (G := grp (map (@sh A) xs) p).
    pose proof (HP p Hp) as HF. fold G in HF. unfold smooth_fun in HF. assert (HL : length (elems xs G) = length G) by (unfold elems; apply map_length). rewrite HL in HF.
    specialize (HF (fun k t => at_ (nth (fst (nth k G (0%nat, []))) (W t) nd0) (snd (nth k G (0%nat, [])))) (fun k => D (fst (nth k G (0%nat, []))) (snd (nth k G (0%nat, [])))) (fun k => H (fst (nth k G (0%nat, []))) (snd (nth k G (0%nat, []))))).
    eapply jt_ext; [|apply HF].
    + generalize HS. apply near_imp. intros t E. rewrite E. fold G. f_equal. unfold elems. apply nth_ext with (d := 0) (d' := 0); [rewrite !map_length, seq_length; reflexivity|]. rewrite map_length, seq_length. intros k Hk.
      rewrite (@nth_map_in _ _ _ (seq 0 (length G)) k 0%nat) by (rewrite seq_length; exact Hk). rewrite (@nth_map_in _ _ _ G k (0%nat, [])) by exact Hk. rewrite seq_nth by exact Hk. reflexivity.
    + intros k Hk. unfold elems. rewrite (@nth_map_in _ _ _ G k (0%nat, [])) by exact Hk. destruct (@wf_at xs p k Hw Hp Hk) as [K1 K2]. apply (curves_at HC); auto.
Qed.
Lemma elems_ext (xs ys : list (nd A)) l : (forall u, In u l -> fst u < length xs /\ inb (snd u) (sh (nth (fst u) xs nd0))) -> Forall2 eqa xs ys -> elems ys l = elems xs l.
Proof.
  intros HI HE. unfold elems. apply map_ext_in. intros u Hu. destruct (HI u Hu) as [H1 H2]. revert H1 H2. generalize (fst u), (snd u). clear HI Hu u. induction HE as [|x y xs ys [E1 E2] _ IH]; intros [|a] q Ha Hq; cbn [nth length] in *; try lia.
  - symmetry. apply E2. exact Hq.
  - apply IH; [lia|exact Hq].
Qed.
Lemma ext_shapes (xs ys : list (nd A)) : Forall2 eqa xs ys -> map (@sh A) ys = map (@sh A) xs.
Proof. intros HE. induction HE as [|x y xs ys [H _] _ IH]; cbn; congruence. Qed.
Lemma wf_elems (xs : list (nd A)) p : grp_wf s grp (map (@sh A) xs) -> inb p (s (map (@sh A) xs)) -> forall u, In u (grp (map (@sh A) xs) p) -> fst u < length xs /\ inb (snd u) (sh (nth (fst u) xs nd0)).
Proof. intros Hw Hp u Hu. destruct (Hw p Hp u Hu) as [H1 H2]. rewrite map_length in H1. split; [exact H1|]. rewrite (@nth_map_in _ _ (@sh A) xs _ nd0 []) in H2 by exact H1. exact H2. Qed.
Lemma gop_fwd_ext (xs : list (nd A)) : grp_wf s grp (map (@sh A) xs) -> fwd_ext f xs.
Proof.
  intros Hw ys HE. pose proof (ext_shapes HE) as Es. cbn [gop o_fwd]. rewrite Es. split; cbn [sh at_]; [reflexivity|]. intros p Hp. f_equal. symmetry. apply elems_ext; [apply wf_elems; auto|exact HE].
Qed.
Lemma gop_op_ext (xs : list (nd A)) : grp_wf s grp (map (@sh A) xs) -> op_ext f xs.
Proof.
  intros Hw ys HE. pose proof (ext_shapes HE) as Es. cbn [gop o_fwd o_h sh]. rewrite Es. split; [reflexivity|]. intros p a q b r Hp _ _ _ _. rewrite (@elems_ext xs ys (grp (map (@sh A) xs) p)); [reflexivity|apply wf_elems; auto|exact HE].
Qed.
Lemma gop_shape : shape_only f.
Proof. intros xs xs' E. cbn [gop o_fwd sh]. rewrite E. reflexivity. Qed.
Lemma gop_linear (xs : list (nd A)) : (forall p k l, inb p (s (map (@sh A) xs)) -> F2 (elems xs (grp (map (@sh A) xs) p)) k l = 0) -> linear f xs.
Proof.
  intros HF p a q b r Hp _ _ _ _. cbn [gop o_fwd o_h sh] in *. apply (@sumn_zero A RA). intros k _. apply (@sumn_zero A RA). intros l _. rewrite HF by exact Hp. destruct (_ && _); reflexivity.
Qed.
End One.
End Gop.

(* ---- the functions of lists of numbers ---- *)
Section Lists.
Context {A : Type} {RA : CRing A} {JA : @Jet A RA}.
Add Ring Aring_RegOps2 : (@rth A RA).
Local Open Scope nat_scope.
Local Open Scope cr_scope.
(* the sum of the elements (cumsum, scatter_add), wrapped_functions.py:342-344, 407-411 *)
Definition suml (v : list A) : A := sumL v (fun x => x).
(* its first derivatives *)
Definition suml_1 (v : list A) (k : nat) : A := 1.
(* its second derivatives *)
Definition suml_2 (v : list A) (k l : nat) : A := 0.
(* the product of the elements (reduce_prod), wrapped_functions.py:339-341 *)
Definition prodl (v : list A) : A := fold_right rmul 1 v.
(* its derivative in element k: the product of the others *)
Fixpoint prodl_1 (v : list A) (k : nat) : A := match v, k with [], _ => 0 | _ :: v', O => prodl v' | x :: v', S k' => x * prodl_1 v' k' end.
(* its second derivative in elements k and l: the product of the others, 0 for k = l *)
Fixpoint prodl_2 (v : list A) (k l : nat) : A :=
  match v, k, l with [], _, _ => 0 | _ :: _, O, O => 0 | _ :: v', O, S l' => prodl_1 v' l' | _ :: v', S k', O => prodl_1 v' k' | x :: v', S k', S l' => x * prodl_2 v' k' l' end.
Lemma suml_smooth vs : smooth_fun suml suml_1 suml_2 vs.
Proof.
  unfold smooth_fun. cbv zeta. intros c D H HJ. unfold suml, suml_1, suml_2. pose proof (@jt_sumn A RA JA (length vs) c (fun a => nth a vs 0) D H HJ) as HS. eapply jt_ext; [|eapply jt_eq; [exact HS|..]].
  - apply filter_forall. intros t. unfold sumn. rewrite (@sumL_map A RA). reflexivity.
  - exact (@sumL_nth A RA A 0 vs (fun x => x)).
  - apply sumn_ext. intros a _. ring.
  - rewrite (@sumn_ext A RA (length vs) (fun a => 1 * H a) H) by (intros; ring). rewrite (@sumn_zero A RA (length vs) (fun a => sumn (length vs) (fun b => 0 * (D a * D b)))); [ring|]. intros a _. apply (@sumn_zero A RA). intros b _. ring.
Qed.
Lemma prodl_smooth vs : smooth_fun prodl prodl_1 prodl_2 vs.
Proof.
  unfold smooth_fun. cbv zeta. induction vs as [|x vs IH]; intros c D H HJ.
  - cbn. eapply jt_eq; [apply jt_const|reflexivity|reflexivity|]. unfold sumn. cbn. ring.
  - specialize (IH (fun a => c (S a)) (fun a => D (S a)) (fun a => H (S a))). assert (J0 : jt (c 0%nat) x (D 0%nat) (H 0%nat)) by exact (HJ 0%nat ltac:(cbn; lia)).
    assert (J1 : forall a, a < length vs -> jt (c (S a)) (nth a vs 0) (D (S a)) (H (S a))) by (intros a Ha; exact (HJ (S a) ltac:(cbn; lia))). specialize (IH J1).
    eapply jt_ext; [|eapply jt_eq; [exact (@jt_mul A RA JA _ _ _ _ _ _ _ _ J0 IH)|..]].
    + apply filter_forall. intros t. cbn [length seq map prodl fold_right]. rewrite <- seq_shift, map_map. reflexivity.
    + reflexivity.
    + cbn [length]. rewrite (@sumn_S A RA). cbn [prodl_1]. rewrite (@sumn_ext A RA _ (fun i => x * prodl_1 vs i * D (S i)) (fun i => x * (prodl_1 vs i * D (S i)))) by (intros; ring). unfold sumn at 2. rewrite (@sumL_scale A RA). unfold sumn. ring.
    + cbn [length]. rewrite !(@sumn_S A RA). cbn [prodl_1 prodl_2].
      rewrite (@sumn_ext A RA (length vs) (fun i => x * prodl_1 vs i * H (S i)) (fun i => x * (prodl_1 vs i * H (S i)))) by (intros; ring).
      rewrite (@sumn_ext A RA (length vs) (fun i => prodl_1 vs i * (D 0%nat * D (S i))) (fun i => D 0%nat * (prodl_1 vs i * D (S i)))) by (intros; ring).
      rewrite (@sumn_ext A RA (length vs) (fun a => sumn (S (length vs)) _) (fun a => D 0%nat * (prodl_1 vs a * D (S a)) + x * sumn (length vs) (fun b => prodl_2 vs a b * (D (S a) * D (S b))))).
      2:{ intros a _. rewrite (@sumn_S A RA). unfold sumn. rewrite <- (@sumL_scale A RA). f_equal; [ring|]. apply sumL_ext. intros b _. ring. }
      unfold sumn. rewrite (@sumL_add A RA), !(@sumL_scale A RA). ring.
Qed.
End Lists.

Local Open Scope R_scope.
(* the largest element (reduce_max, scatter_max), wrapped_functions.py:329-333, 412-416 *)
Fixpoint maxr (v : list R) : R := match v with [] => 0 | [x] => x | x :: v' => Rmax x (maxr v') end.
(* the smallest element (reduce_min, scatter_min), wrapped_functions.py:334-338, 417-421 *)
Fixpoint minr (v : list R) : R := match v with [] => 0 | [x] => x | x :: v' => Rmin x (minr v') end.
(* how many elements equal m *)
Definition count_eq (m : R) (v : list R) : R := INR (length (filter (fun x => if Req_EM_T x m then true else false) v)).
(* derivative in element k, as jax computes it: 1 at the extreme element, shared equally between several *)
Definition ext_1 (F : list R -> R) (v : list R) (k : nat) : R := if Req_EM_T (nth k v 0) (F v) then / count_eq (F v) v else 0.
(* second derivatives *)
Definition ext_2 (v : list R) (k l : nat) : R := 0.
(* exactly one element is the largest (sg = 1) or the smallest (sg = -1) *)
Definition one_extreme (sg : R) (v : list R) : Prop := exists k, (k < length v)%nat /\ forall j, (j < length v)%nat -> j <> k -> sg * nth j v 0 < sg * nth k v 0.
Lemma maxr_is v k : (k < length v)%nat -> (forall j, (j < length v)%nat -> nth j v 0 <= nth k v 0) -> maxr v = nth k v 0.
Proof.
  revert k. induction v as [|x [|y v] IH]; intros k Hk HM; [cbn in Hk; lia|destruct k; [reflexivity|cbn in Hk; lia]|]. change (maxr (x :: y :: v)) with (Rmax x (maxr (y :: v))). destruct k as [|k].
  - cbn [nth] in *. apply Rmax_left. assert (HB : exists j, (j < length (y :: v))%nat /\ maxr (y :: v) = nth j (y :: v) 0).
    { clear. revert y. induction v as [|z v IH]; intros y; [exists 0%nat; split; [cbn; lia|reflexivity]|]. destruct (IH z) as (j & Hj & E). change (maxr (y :: z :: v)) with (Rmax y (maxr (z :: v))). unfold Rmax. destruct (Rle_dec y (maxr (z :: v))).
      - exists (S j). split; [cbn in *; lia|exact E]. - exists 0%nat. split; [cbn; lia|reflexivity]. }
    destruct HB as (j & Hj & ->). exact (HM (S j) ltac:(cbn in *; lia)).
  - rewrite (IH k).
    + cbn [nth]. apply Rmax_right. exact (HM 0%nat ltac:(cbn; lia)).
    + cbn in *; lia.
    + intros j Hj. exact (HM (S j) ltac:(cbn in *; lia)).
Qed.
Lemma minr_opp v : minr v = - maxr (map Ropp v).
Proof.
  induction v as [|x [|y v] IH]; [cbn; ring|cbn; ring|]. change (minr (x :: y :: v)) with (Rmin x (minr (y :: v))). rewrite IH. cbn [map]. change (maxr (- x :: - y :: map Ropp v)) with (Rmax (- x) (maxr (- y :: map Ropp v))).
  rewrite Ropp_Rmax, Ropp_involutive. reflexivity.
Qed.
Lemma minr_is v k : (k < length v)%nat -> (forall j, (j < length v)%nat -> nth k v 0 <= nth j v 0) -> minr v = nth k v 0.
Proof.
  intros Hk HM. assert (HN : forall j, nth j (map Ropp v) 0 = - nth j v 0) by (intros j; rewrite <- (map_nth Ropp v 0 j); f_equal; ring). rewrite minr_opp, (@maxr_is _ k).
  - rewrite HN. ring.
  - rewrite map_length. exact Hk.
  - intros j Hj. rewrite map_length in Hj. rewrite !HN. specialize (HM j Hj). lra.
Qed.
Lemma count_one v k : (k < length v)%nat -> (forall j, (j < length v)%nat -> j <> k -> nth j v 0 <> nth k v 0) -> count_eq (nth k v 0) v = 1.
Proof.
  intros Hk HM. unfold count_eq. replace (length (filter _ v)) with 1%nat; [reflexivity|]. symmetry. revert k Hk HM. induction v as [|x v IH]; intros k Hk HM; [cbn in Hk; lia|]. destruct k as [|k]; cbn [nth filter].
  - destruct (Req_EM_T x x) as [_|N]; [|congruence]. cbn [length]. f_equal. assert (HF : forall y, In y v -> y <> x).
    { intros y Hy. apply (In_nth _ _ 0) in Hy. destruct Hy as (j & Hj & <-). exact (HM (S j) ltac:(cbn; lia) ltac:(lia)). }
    clear -HF. induction v as [|y v IH]; cbn; [reflexivity|]. destruct (Req_EM_T y x) as [E|_]; [exfalso; exact (HF y (or_introl eq_refl) E)|]. apply IH. intros z Hz. apply HF. right. exact Hz.
  - destruct (Req_EM_T x (nth k v 0)) as [E|_]; [exfalso; exact (HM 0%nat ltac:(cbn; lia) ltac:(lia) E)|]. apply IH; [cbn in Hk; lia|]. intros j Hj Hne. exact (HM (S j) ltac:(cbn; lia) ltac:(lia)).
Qed.
Lemma ext_smooth sg F vs : (forall v k, (k < length v)%nat -> (forall j, (j < length v)%nat -> sg * nth j v 0 <= sg * nth k v 0) -> F v = nth k v 0) -> one_extreme sg vs -> smooth_fun F (ext_1 F) ext_2 vs.
Proof.
  intros HF (k & Hk & HM). unfold smooth_fun. cbv zeta. intros c D H HJ. assert (EV : F vs = nth k vs 0) by (apply HF; [exact Hk|]; intros j Hj; destruct (Nat.eq_dec j k) as [->|N]; [apply Rle_refl|left; exact (HM j Hj N)]).
  assert (E1 : forall a, (a < length vs)%nat -> ext_1 F vs a = if Nat.eqb a k then 1 else 0).
  { intros a Ha. unfold ext_1. rewrite EV. destruct (Nat.eqb_spec a k) as [->|N].
    - destruct (Req_EM_T (nth k vs 0) (nth k vs 0)) as [_|N]; [|congruence]. rewrite count_one; [field|exact Hk|]. intros j Hj Hne E. specialize (HM j Hj Hne). rewrite E in HM. lra.
    - destruct (Req_EM_T (nth a vs 0) (nth k vs 0)) as [E|_]; [|reflexivity]. specialize (HM a Ha N). rewrite E in HM. lra. }
  assert (ES : forall X : nat -> R, sumn (length vs) (fun a => rmul (ext_1 F vs a) (X a)) = X k).
  { intros X. rewrite (@sumn_single R CRing_R _ k).
    - rewrite E1 by exact Hk. rewrite Nat.eqb_refl. cbn. ring.
    - exact Hk.
    - intros a Ha N. rewrite E1 by exact Ha. destruct (Nat.eqb_spec a k); [congruence|]. cbn. ring. }
  rewrite !ES. rewrite EV. eapply jt_ext; [|eapply jt_eq; [exact (HJ k Hk)|reflexivity|reflexivity|]].
  - assert (HN : near (fun t => forall j, (j < length vs)%nat -> j <> k -> sg * c j t < sg * c k t)).
    { apply near_nat. intros j Hj. destruct (Nat.eq_dec j k) as [->|N]; [apply near_all; congruence|]. specialize (HM j Hj N).
      pose proof (jet2_minus (jet2_mult (jet2_const sg) (HJ k Hk)) (jet2_mult (jet2_const sg) (HJ j Hj))) as HP. pose proof (jet2_pos HP) as HQ. cbv beta in HQ. specialize (HQ ltac:(change (@r0 R CRing_R) with 0 in *; lra)). revert HQ. apply filter_imp. intros t Ht _. lra. }
    revert HN. apply filter_imp. intros t Ht. symmetry. assert (EN : forall j, (j < length vs)%nat -> nth j (map (fun a => c a t) (seq 0 (length vs))) 0 = c j t) by (intros j Hj; rewrite (@nth_map_in _ _ _ (seq 0 (length vs)) j 0%nat) by (rewrite seq_length; exact Hj); rewrite seq_nth by exact Hj; reflexivity).
    rewrite (HF _ k).
    + apply EN. exact Hk.
    + rewrite map_length, seq_length. exact Hk.
    + rewrite map_length, seq_length. intros j Hj. rewrite !EN by assumption. destruct (Nat.eq_dec j k) as [->|N]; [apply Rle_refl|left; exact (Ht j Hj N)].
  - rewrite (@sumn_zero R CRing_R (length vs) (fun a => sumn (length vs) (fun b => rmul (ext_2 vs a b) (rmul (D a) (D b))))); [cbn; ring|]. intros a _. apply (@sumn_zero R CRing_R). intros b _. unfold ext_2. cbn. ring.
Qed.
Lemma max_smooth vs : one_extreme 1 vs -> smooth_fun maxr (ext_1 maxr) ext_2 vs.
Proof. apply ext_smooth. intros v k Hk HM. apply maxr_is; [exact Hk|]. intros j Hj. specialize (HM j Hj). lra. Qed.
Lemma min_smooth vs : one_extreme (-1) vs -> smooth_fun minr (ext_1 minr) ext_2 vs.
Proof. apply ext_smooth. intros v k Hk HM. apply minr_is; [exact Hk|]. intros j Hj. specialize (HM j Hj). lra. Qed.

(* ---- the primitives ---- *)
Local Open Scope nat_scope.
(* a reduction over axes: the shape of the result ... *)
Definition red_shape (axes : list nat) (ss : list shape) : shape := let s := nth 0 ss [] in permute (keep_pos (length s) axes) s.
(* ... and the elements that element p of the result combines (wrapped_functions.py:324-341: jax.lax.reduce_prod, ...) *)
Definition red_grp (axes : list nat) (ss : list shape) (p : ix) : list epos := let s := nth 0 ss [] in map (fun j => (0, weave (length s) axes p j)) (allix (permute axes s)).
(* replace coordinate d of p by j *)
Definition put (d j : nat) (p : ix) : ix := firstn d p ++ j :: skipn (S d) p.
(* cumsum along axis d (wrapped_functions.py:342-344: jax.lax.cumsum): elements 0..p[d], or p[d].. when reverse *)
Definition cum_grp (d : nat) (reverse : bool) (ss : list shape) (p : ix) : list epos :=
  let k := nth d p 0 in map (fun j => (0, put d j p)) (if reverse then seq k (nth d (nth 0 ss []) 0 - k) else seq 0 (S k)).
(* scatter operations (wrapped_functions.py:407-421: jax.lax.scatter_add, ...) on (operand, indices, updates): update u lands on element [tgt u] (nowhere: out of bounds);
   the map is given by the indices and the dimension numbers *)
Definition scat_grp (tgt : ix -> option ix) (ss : list shape) (p : ix) : list epos :=
  (0, p) :: map (fun u => (2, u)) (filter (fun u => match tgt u with Some t => ixeqb t p | None => false end) (allix (nth 2 ss []))).
(* jax.lax.reduce_prod *)
Definition op_prod {A} {RA : CRing A} (axes : list nat) : op A := gop (red_shape axes) (red_grp axes) prodl prodl_1 prodl_2.
(* jax.lax.reduce_max *)
Definition op_max (axes : list nat) : op R := gop (red_shape axes) (red_grp axes) maxr (ext_1 maxr) ext_2.
(* jax.lax.reduce_min *)
Definition op_min (axes : list nat) : op R := gop (red_shape axes) (red_grp axes) minr (ext_1 minr) ext_2.
(* jax.lax.cumsum *)
Definition op_cumsum {A} {RA : CRing A} (d : nat) (reverse : bool) : op A := gop (fun ss => nth 0 ss []) (cum_grp d reverse) suml suml_1 suml_2.
(* jax.lax.scatter_add *)
Definition op_scatter_add {A} {RA : CRing A} (tgt : ix -> option ix) : op A := gop (fun ss => nth 0 ss []) (scat_grp tgt) suml suml_1 suml_2.
(* jax.lax.scatter_max *)
Definition op_scatter_max (tgt : ix -> option ix) : op R := gop (fun ss => nth 0 ss []) (scat_grp tgt) maxr (ext_1 maxr) ext_2.
(* jax.lax.scatter_min *)
Definition op_scatter_min (tgt : ix -> option ix) : op R := gop (fun ss => nth 0 ss []) (scat_grp tgt) minr (ext_1 minr) ext_2.
(* jax.lax.atan2 of (y, x): the angle of the point (x, y) *)
Definition atan2_f (v : list R) : R := carg (v1 v, v0 v).
(* its first derivatives *)
Definition atan2_1 (v : list R) (a : nat) : R := (match a with O => v1 v / (v0 v * v0 v + v1 v * v1 v) | S O => - v0 v / (v0 v * v0 v + v1 v * v1 v) | _ => 0 end)%R.
(* its second derivatives *)
Definition atan2_2 (v : list R) (a b : nat) : R :=
  (let n := (v0 v * v0 v + v1 v * v1 v) * (v0 v * v0 v + v1 v * v1 v) in
  match a, b with O, O => - (2 * v0 v * v1 v) / n | O, S O | S O, O => (v0 v * v0 v - v1 v * v1 v) / n | S O, S O => 2 * v0 v * v1 v / n | _, _ => 0 end)%R.
(* the registered primitives (wrapped_functions.py:329-344, 356, 407-421) *)
Definition reduce_prod (axes : list nat) : prim := PRed axes (op_prod axes).
(* wrapped_functions.py:329-333 *)
Definition reduce_max (axes : list nat) : prim := PLinRed axes (op_max axes).
(* wrapped_functions.py:334-338 *)
Definition reduce_min (axes : list nat) : prim := PLinRed axes (op_min axes).
(* wrapped_functions.py:342-344 *)
Definition cumsum (d : nat) (reverse : bool) : prim := PLinear (op_cumsum d reverse).
(* wrapped_functions.py:407-411 *)
Definition scatter_add (tgt : ix -> option ix) : prim := PLinear (op_scatter_add tgt).
(* wrapped_functions.py:412-416 *)
Definition scatter_max (tgt : ix -> option ix) : prim := PLinear (op_scatter_max tgt).
(* wrapped_functions.py:417-421 *)
Definition scatter_min (tgt : ix -> option ix) : prim := PLinear (op_scatter_min tgt).
(* wrapped_functions.py:356 *)
Definition atan2 : prim := PEw atan2_f atan2_1 atan2_2.
(* reduce_prod of complex arrays *)
Definition complex_reduce_prod (axes : list nat) : prim := PCplx (CKern (KRed axes (op_prod axes))).
(* cumsum of complex arrays *)
Definition complex_cumsum (d : nat) (reverse : bool) : prim := PCplx (CKern (KLinear (op_cumsum d reverse))).

Lemma red_wf axes (s : shape) : NoDup axes -> (forall d, In d axes -> d < length s) -> grp_wf (red_shape axes) (red_grp axes) [s].
Proof.
  intros H1 H2 p Hp u Hu. unfold red_grp, red_shape in *. cbn [nth] in *. apply in_map_iff in Hu. destruct Hu as (j & <- & Hj). cbn [fst snd nth length]. split; [lia|]. apply allix_spec in Hj. apply weave_inb; auto.
Qed.
Lemma put_inb d j p s : inb p s -> j < nth d s 0 -> inb (put d j p) s.
Proof.
  revert d s. induction p as [|x p IH]; intros d s Hp Hj; inversion Hp; subst; [destruct d; cbn in Hj; lia|]. destruct d as [|d]; cbn in *; constructor; auto. apply IH; auto.
Qed.
Lemma inb_nth_lt d p s : inb p s -> d < length s -> nth d p 0 < nth d s 0.
Proof. revert d s. induction p as [|x p IH]; intros d s Hp Hd; inversion Hp; subst; cbn in *; [lia|]. destruct d; [exact H1|]. apply IH; [assumption|lia]. Qed.
Lemma cum_wf d reverse (s : shape) : d < length s -> grp_wf (fun ss => nth 0 ss []) (cum_grp d reverse) [s].
Proof.
  intros Hd p Hp u Hu. cbn [nth] in Hp. unfold cum_grp in Hu. cbn [nth] in Hu. apply in_map_iff in Hu. destruct Hu as (j & <- & Hj). cbn [fst snd nth length]. split; [lia|]. pose proof (@inb_nth_lt d p s Hp Hd) as Hl. apply put_inb; [exact Hp|]. destruct reverse; apply in_seq in Hj; lia.
Qed.
Lemma scat_wf tgt (s s1 s2 : shape) : grp_wf (fun ss => nth 0 ss []) (scat_grp tgt) [s; s1; s2].
Proof.
  intros p Hp u Hu. cbn [nth] in Hp. unfold scat_grp in Hu. cbn [nth] in Hu. destruct Hu as [<-|Hu]; [split; [cbn; lia|exact Hp]|]. apply in_map_iff in Hu. destruct Hu as (j & <- & Hj). apply filter_In in Hj. destruct Hj as [Hj _]. apply allix_spec in Hj. split; [cbn; lia|exact Hj].
Qed.
Section Gred.
Context {A : Type} {RA : CRing A}.
Lemma gop_reduces axes (x : nd A) F F1 F2 : NoDup axes -> (forall d, In d axes -> d < ndim x) -> reduces (gop (red_shape axes) (red_grp axes) F F1 F2) x axes.
Proof.
  intros H1 H2 p q Hp Hq Hne. cbn [gop o_fwd sh o_d] in *. apply (@sumn_zero A RA). intros k Hk. rewrite eposb_no; [reflexivity|]. intros E. apply Hne. change (map (@sh A) [x]) with [sh x] in *.
  unfold red_grp in E, Hk. unfold red_shape in Hp. cbn [nth] in E, Hk, Hp. rewrite map_length in Hk. rewrite (@nth_map_in _ _ _ (allix (permute axes (sh x))) k []) in E by exact Hk. injection E as <-. unfold ndim. rewrite weave_keep.
  - symmetry. apply bproj_same. exact Hp.
  - rewrite (inb_length Hp). apply permute_length.
Qed.
End Gred.
Lemma atan2_smooth vs : length vs = 2 -> (0 < v1 vs \/ v0 vs <> 0)%R -> smooth_fun atan2_f atan2_1 atan2_2 vs.
Proof.
  intros HL HD. destruct vs as [|y [|x [|? ?]]]; try discriminate. unfold v0, v1 in HD. cbn [nth] in HD. unfold smooth_fun. cbv zeta. intros c D H HJ. pose proof (HJ 0 ltac:(cbn; lia)) as J0. pose proof (HJ 1 ltac:(cbn; lia)) as J1. cbn [nth length] in *.
  assert (HZ : slit (x, y)) by exact HD. assert (HC : jetC (fun t => (c 1 t, c 0 t)) (x, y) (D 1, D 0) (H 1, H 0)) by (split; assumption). pose proof (n2_pos (slit_nz HZ)) as HN. unfold n2 in HN. cbn [fst snd] in HN.
  destruct (@cln_ctw (x, y) HZ _ _ _ HC) as [_ HX]. unfold sumn, atan2_f, atan2_1, atan2_2, v0, v1. cbn [seq map sumL nth]. cbn [cln snd] in HX. eapply jet2_eq; [exact HX|reflexivity|..]; unfold cinv, n2; cc; rings; field; lra.
Qed.
