(* Props_RegVal.v : C48, the functions themselves.  What the registered functions compute is stated here again, without the model's index helpers: reductions, cumulative sums and
   scatters by membership in the set of combined elements, elementwise functions by their characteristic equations. *)
From Coq Require Import Reals Lra Permutation.
From Coquelicot Require Import Coquelicot.
From Verif Require Export Props_Reg.
Set Implicit Arguments.
Open Scope nat_scope.

(* ---- specification ---- *)
(* an index without the coordinates on the given axes (d: number of the first coordinate) *)
Fixpoint drop_axes (axes : list nat) (d : nat) (q : ix) : ix := match q with [] => [] | c :: q' => if existsb (Nat.eqb d) axes then drop_axes axes (S d) q' else c :: drop_axes axes (S d) q' end.
(* the elements of x at the positions q that satisfy P *)
Definition selected {A} (x : nd A) (P : ix -> bool) : list A := map (at_ x) (filter P (allix (sh x))).
(* their sum and product *)
Definition total {A} {RA : CRing A} (l : list A) : A := fold_right radd r0 l.
Definition product {A} {RA : CRing A} (l : list A) : A := fold_right rmul r1 l.
(* m is the largest (smallest) of the list *)
Definition largest (l : list R) (m : R) : Prop := In m l /\ forall y, In y l -> (y <= m)%R.
Definition smallest (l : list R) (m : R) : Prop := In m l /\ forall y, In y l -> (m <= y)%R.
(* q lies on the line through p along axis d, at most (reverse: at least) as far as p *)
Definition up_to (d : nat) (reverse : bool) (p q : ix) : bool :=
  forallb (fun e => if Nat.eqb e d then (if reverse then Nat.leb (nth e p 0) (nth e q 0) else Nat.leb (nth e q 0) (nth e p 0)) else Nat.eqb (nth e q 0) (nth e p 0)) (seq 0 (length p)).
(* the updates that land on p *)
Definition lands (tgt : ix -> option ix) (p u : ix) : bool := match tgt u with Some t => if list_eq_dec Nat.eq_dec t p then true else false | None => false end.
(* y = reduce x over axes with the combination C of the elements *)
Definition reduces_to {A} (axes : list nat) (x y : nd A) (C : list A -> A -> Prop) : Prop :=
  sh y = drop_axes axes 0 (sh x) /\ forall p, inb p (sh y) -> C (selected x (fun q => if list_eq_dec Nat.eq_dec (drop_axes axes 0 q) p then true else false)) (at_ y p).

(* ---- proofs ---- *)
Lemma drop_keep axes q : forall d, drop_axes axes d q = map (fun e => nth (e - d) q 0) (filter (fun e => negb (existsb (Nat.eqb e) axes)) (seq d (length q))).
Proof.
  induction q as [|c q IH]; intros d; [reflexivity|]. cbn [drop_axes length seq filter]. rewrite IH.
  assert (E : map (fun e => nth (e - S d) q 0) (filter (fun e => negb (existsb (Nat.eqb e) axes)) (seq (S d) (length q))) = map (fun e => nth (e - d) (c :: q) 0) (filter (fun e => negb (existsb (Nat.eqb e) axes)) (seq (S d) (length q)))).
  { apply map_ext_in. intros e He. apply filter_In in He. destruct He as [He _]. apply in_seq in He. replace (e - d) with (S (e - S d)) by lia. reflexivity. }
  rewrite E. destruct (existsb (Nat.eqb d) axes); cbn [negb]; [reflexivity|]. cbn [map]. rewrite Nat.sub_diag. reflexivity.
Qed.
Lemma drop_permute axes q : drop_axes axes 0 q = permute (keep_pos (length q) axes) q.
Proof. rewrite drop_keep. unfold permute, keep_pos. apply map_ext. intros e. rewrite Nat.sub_0_r. reflexivity. Qed.
Lemma red_perm axes (s : shape) p : NoDup axes -> (forall d, In d axes -> d < length s) -> inb p (permute (keep_pos (length s) axes) s) ->
  Permutation (map (weave (length s) axes p) (allix (permute axes s))) (filter (fun q => if list_eq_dec Nat.eq_dec (drop_axes axes 0 q) p then true else false) (allix s)).
Proof.
  intros H1 H2 Hp. assert (HL : length p = length (keep_pos (length s) axes)) by (rewrite (inb_length Hp); apply permute_length). apply NoDup_Permutation.
  - assert (K : forall l, NoDup l -> (forall j, In j l -> length j = length axes) -> NoDup (map (weave (length s) axes p) l)).
    { induction l as [|j l IH]; intros N HJ; cbn; [constructor|]. inversion N; subst. constructor; [|apply IH; [assumption|intros; apply HJ; right; assumption]]. intros Hin. apply in_map_iff in Hin. destruct Hin as (k & E & Hk). apply H3.
      rewrite <- (@weave_axes (length s) axes p j), <- E, (@weave_axes (length s) axes p k); auto; apply HJ; [right; exact Hk|left; reflexivity]. }
    apply K; [apply allix_NoDup|]. intros j Hj. apply allix_spec in Hj. rewrite (inb_length Hj). apply permute_length.
  - apply NoDup_filter, allix_NoDup.
  - intros q. rewrite in_map_iff, filter_In, allix_spec. split.
    + intros (j & <- & Hj). apply allix_spec in Hj. split; [apply weave_inb; auto|]. rewrite drop_permute, weave_length, weave_keep by exact HL. destruct (list_eq_dec Nat.eq_dec p p); congruence.
    + intros [Hq E]. destruct (list_eq_dec Nat.eq_dec (drop_axes axes 0 q) p) as [E'|]; [|discriminate]. rewrite drop_permute in E'. pose proof (inb_length Hq) as Lq. rewrite Lq in E'. exists (permute axes q). split.
      * rewrite <- E'. apply weave_permute; auto.
      * apply allix_spec. apply permute_inb; [exact H2|exact Hq].
Qed.
Lemma put_nth d j p e : d < length p -> nth e (put d j p) 0 = if Nat.eqb e d then j else nth e p 0.
Proof.
  unfold put. revert d e. induction p as [|c p IH]; intros d e Hd; cbn [length] in Hd; [lia|]. destruct d as [|d]; [destruct e; reflexivity|]. destruct e as [|e]; [reflexivity|]. cbn [firstn skipn app nth]. specialize (IH d e ltac:(lia)). cbn [skipn] in IH. rewrite IH. reflexivity.
Qed.
Lemma put_length d j p : d < length p -> length (put d j p) = length p.
Proof. intros Hd. unfold put. rewrite app_length. cbn [length]. rewrite firstn_length, skipn_length. lia. Qed.
Lemma cum_perm (d : nat) (reverse : bool) (s : shape) (p : ix) : inb p s -> d < length s -> 
  Permutation (map (fun j => put d j p) (if reverse then seq (nth d p 0) (nth d s 0 - nth d p 0) else seq 0 (S (nth d p 0)))) (filter (up_to d reverse p) (allix s)).
Proof.
  intros Hp Hd. pose proof (inb_length Hp) as HL. assert (Hd' : d < length p) by lia. pose proof (@inb_nth_lt d p s Hp Hd) as Hk. apply NoDup_Permutation.
  - assert (K : forall l, NoDup l -> NoDup (map (fun j => put d j p) l)).
    { induction l as [|j l IH]; intros N; cbn [map]; [constructor|]. inversion N as [|? ? N1 N2]; subst. constructor; [|apply IH; assumption]. intros Hin. apply in_map_iff in Hin. destruct Hin as (k & E & Hk'). apply N1. apply (f_equal (fun q => nth d q 0)) in E. rewrite !put_nth, Nat.eqb_refl in E by exact Hd'. congruence. }
    apply K. destruct reverse; apply seq_NoDup.
  - apply NoDup_filter, allix_NoDup.
  - intros q. rewrite in_map_iff, filter_In, allix_spec. unfold up_to. rewrite forallb_forall. split.
    + intros (j & <- & Hj). split; [apply put_inb; [exact Hp|]; destruct reverse; apply in_seq in Hj; lia|]. intros e He. rewrite put_nth by exact Hd'. destruct (Nat.eqb_spec e d) as [->|N]; [|apply Nat.eqb_refl]. destruct reverse; apply in_seq in Hj; apply Nat.leb_le; lia.
    + intros [Hq HE]. pose proof (inb_length Hq) as HLq. exists (nth d q 0). split.
      * apply nth_ext with (d := 0) (d' := 0); [rewrite put_length; lia|]. intros e He. rewrite put_length in He by exact Hd'. rewrite put_nth by exact Hd'. assert (HE' := HE e ltac:(apply in_seq; lia)). destruct (Nat.eqb_spec e d) as [->|N]; [reflexivity|]. apply Nat.eqb_eq in HE'. congruence.
      * specialize (HE d ltac:(apply in_seq; lia)). rewrite Nat.eqb_refl in HE. pose proof (@inb_nth_lt d q s Hq Hd). destruct reverse; apply Nat.leb_le in HE; apply in_seq; lia.
Qed.
Section Gen.
Context {A : Type} {RA : CRing A}.
Add Ring Aring_RegVal : (@rth A RA).
Lemma elems_0 (x : nd A) (f : ix -> ix) l : elems [x] (map (fun j => (0, f j)) l) = map (at_ x) (map f l).
Proof. unfold elems. rewrite !map_map. reflexivity. Qed.
Lemma elems_0n (x : nd A) (f : nat -> ix) l : elems [x] (map (fun j => (0, f j)) l) = map (at_ x) (map f l).
Proof. unfold elems. rewrite !map_map. reflexivity. Qed.
Lemma total_perm (l m : list A) : Permutation l m -> total l = total m.
Proof.
  intros H. induction H as [|x l m H IH|x y l|l m k H1 IH1 H2 IH2]; [reflexivity| | |congruence].
  - change (radd x (total l) = radd x (total m)). rewrite IH. reflexivity.
  - change (radd y (radd x (total l)) = radd x (radd y (total l))). ring.
Qed.
Lemma product_perm (l m : list A) : Permutation l m -> product l = product m.
Proof.
  intros H. induction H as [|x l m H IH|x y l|l m k H1 IH1 H2 IH2]; [reflexivity| | |congruence].
  - change (rmul x (product l) = rmul x (product m)). rewrite IH. reflexivity.
  - change (rmul y (rmul x (product l)) = rmul x (rmul y (product l))). ring.
Qed.
Lemma suml_total (l : list A) : suml l = total l.
Proof. unfold suml, total. induction l as [|x l IH]; cbn; [reflexivity|]. rewrite IH. reflexivity. Qed.
Lemma sumL_total {X} (l : list X) (f : X -> A) : sumL l f = total (map f l).
Proof. unfold total. induction l as [|x l IH]; cbn; [reflexivity|]. rewrite IH. reflexivity. Qed.
Lemma gop_reduces_to axes (x : nd A) F F1 F2 (C : list A -> A -> Prop) : NoDup axes -> (forall d, In d axes -> d < ndim x) -> (forall l m, Permutation l m -> C m (F l)) ->
  reduces_to axes x (o_fwd (gop (red_shape axes) (red_grp axes) F F1 F2) [x]) C.
Proof.
  intros H1 H2 HC. unfold reduces_to. cbn [gop o_fwd sh map]. unfold red_shape at 1. cbn [nth]. split; [rewrite drop_permute; reflexivity|]. intros p Hp. unfold red_shape in Hp. cbn [nth] in Hp. cbn [at_]. unfold red_grp. cbn [nth]. rewrite elems_0. apply HC. unfold selected. apply Permutation_map. apply red_perm; assumption.
Qed.
Lemma sum_reduces_to axes (x : nd A) : NoDup axes -> (forall d, In d axes -> d < ndim x) -> reduces_to axes x (o_fwd (op_sum axes) [x]) (fun l m => m = total l).
Proof.
  intros H1 H2. unfold reduces_to. cbn [op_sum o_fwd nth np_sum sh]. split; [rewrite drop_permute; reflexivity|]. intros p Hp. change (at_ (np_sum axes x) p) with (sumL (allix (permute axes (sh x))) (fun j => at_ x (weave (ndim x) axes p j))). rewrite sumL_total. unfold selected. apply total_perm. rewrite <- (map_map (weave (ndim x) axes p) (at_ x)). apply Permutation_map. apply red_perm; assumption.
Qed.
Lemma cumsum_value (d : nat) (reverse : bool) (x : nd A) p : d < ndim x -> inb p (sh x) -> at_ (o_fwd (op_cumsum d reverse) [x]) p = total (selected x (up_to d reverse p)).
Proof.
  intros Hd Hp. unfold op_cumsum. cbn [gop o_fwd at_ map]. unfold cum_grp. cbn [nth]. rewrite elems_0n, suml_total. apply total_perm. unfold selected. apply Permutation_map. apply cum_perm; assumption.
Qed.
Lemma scat_elems tgt (x i u : nd A) p : elems [x; i; u] (scat_grp tgt [sh x; sh i; sh u] p) = at_ x p :: selected u (lands tgt p).
Proof.
  unfold elems, scat_grp, selected. cbn [map nth fst snd]. apply f_equal. rewrite map_map. cbn [fst snd nth]. apply f_equal. apply filter_ext. intros w. unfold lands. destruct (tgt w) as [t|]; [|reflexivity]. destruct (list_eq_dec Nat.eq_dec t p) as [->|N]; [apply ixeqb_refl|]. destruct (ixeqb t p) eqn:E; [apply ixeqb_eq in E; congruence|reflexivity].
Qed.
End Gen.
Lemma maxr_largest l : l <> [] -> largest l (maxr l).
Proof.
  induction l as [|x [|y l] IH]; intros Hl; [congruence|split; [left; reflexivity|]; intros y [<-|[]]; apply Rle_refl|]. destruct (IH ltac:(discriminate)) as [H1 H2]. change (maxr (x :: y :: l)) with (Rmax x (maxr (y :: l))). split.
  - unfold Rmax. destruct (Rle_dec x (maxr (y :: l))); [right; exact H1|left; reflexivity].
  - intros z [<-|Hz]; [apply Rmax_l|]. eapply Rle_trans; [apply H2; exact Hz|apply Rmax_r].
Qed.
Lemma minr_smallest l : l <> [] -> smallest l (minr l).
Proof.
  induction l as [|x [|y l] IH]; intros Hl; [congruence|split; [left; reflexivity|]; intros y [<-|[]]; apply Rle_refl|]. destruct (IH ltac:(discriminate)) as [H1 H2]. change (minr (x :: y :: l)) with (Rmin x (minr (y :: l))). split.
  - unfold Rmin. destruct (Rle_dec x (minr (y :: l))); [left; reflexivity|right; exact H1].
  - intros z [<-|Hz]; [apply Rmin_l|]. eapply Rle_trans; [apply Rmin_r|apply H2; exact Hz].
Qed.
Lemma largest_perm l m : Permutation l m -> m <> [] -> largest m (maxr l).
Proof. intros H Hm. destruct (@maxr_largest l) as [H1 H2]; [intros ->; apply Permutation_nil in H; congruence|]. split; [eapply Permutation_in; eassumption|]. intros y Hy. apply H2. eapply Permutation_in; [apply Permutation_sym; exact H|exact Hy]. Qed.
Lemma smallest_perm l m : Permutation l m -> m <> [] -> smallest m (minr l).
Proof. intros H Hm. destruct (@minr_smallest l) as [H1 H2]; [intros ->; apply Permutation_nil in H; congruence|]. split; [eapply Permutation_in; eassumption|]. intros y Hy. apply H2. eapply Permutation_in; [apply Permutation_sym; exact H|exact Hy]. Qed.

(* ---- C48: reductions combine exactly the elements whose other coordinates are those of the output position ---- *)
Theorem C48_reduction_values : forall (axes : list nat) (x : nd R), axes <> [] -> NoDup axes -> (forall d, In d axes -> d < ndim x) ->
  reduces_to axes x (o_fwd (prim_op (PSum axes)) [x]) (fun l m => m = total l) /\
  reduces_to axes x (o_fwd (prim_op (reduce_prod axes)) [x]) (fun l m => m = product l) /\
  reduces_to axes x (o_fwd (prim_op (reduce_max axes)) [x]) (fun l m => l <> [] -> largest l m) /\
  reduces_to axes x (o_fwd (prim_op (reduce_min axes)) [x]) (fun l m => l <> [] -> smallest l m).
Proof.
  intros axes x _ H1 H2. split; [apply sum_reduces_to; assumption|]. split; [|split]; apply gop_reduces_to; try assumption.
  - intros l m H. exact (product_perm H).
  - intros l m H Hm. exact (largest_perm H Hm).
  - intros l m H Hm. exact (smallest_perm H Hm).
Qed.
Print Assumptions C48_reduction_values.
Lemma join_split (z : nd (R * R)) : sh (join2 (split2 z)) = sh z /\ forall p, at_ (join2 (split2 z)) p = at_ z p.
Proof.
  split; [cbn; apply removelast_last|]. intros p. unfold join2, split2. cbn [at_]. rewrite !removelast_last, !last_last. destruct (at_ z p); reflexivity.
Qed.
Lemma reduces_to_join axes (x : nd (R * R)) z C : reduces_to axes x z C -> reduces_to axes x (join2 (split2 z)) C.
Proof. intros [H1 H2]. destruct (join_split z) as [J1 J2]. split; [rewrite J1; exact H1|]. intros p Hp. rewrite J2. apply H2. rewrite J1 in Hp. exact Hp. Qed.
(* the same for complex arrays (stored with a trailing axis (re, im), read by join2) *)
Theorem C48_complex_reduction_values : forall (axes : list nat) (x : nd R), axes <> [] -> NoDup axes -> (forall d, In d axes -> d < ndim (join2 x)) ->
  reduces_to axes (join2 x) (join2 (o_fwd (prim_op (PCplx (CKern (KSum axes)))) [x])) (fun l m => m = total l) /\
  reduces_to axes (join2 x) (join2 (o_fwd (prim_op (complex_reduce_prod axes)) [x])) (fun l m => m = product l).
Proof.
  intros axes x _ H1 H2. split; apply (@reduces_to_join axes (join2 x)).
  - apply (@sum_reduces_to (R * R)); assumption.
  - apply gop_reduces_to; try assumption. intros l m H. exact (product_perm H).
Qed.
Print Assumptions C48_complex_reduction_values.
(* cumsum adds the elements up to (reverse: from) the position along the axis *)
Theorem C48_cumsum_values : forall (d : nat) (reverse : bool) (x : nd R),
  (d < ndim x -> sh (o_fwd (prim_op (cumsum d reverse)) [x]) = sh x /\ forall p, inb p (sh x) -> at_ (o_fwd (prim_op (cumsum d reverse)) [x]) p = total (selected x (up_to d reverse p))) /\
  (d < ndim (join2 x) -> let y := join2 (o_fwd (prim_op (complex_cumsum d reverse)) [x]) in sh y = sh (join2 x) /\ forall p, inb p (sh y) -> at_ y p = total (selected (join2 x) (up_to d reverse p))).
Proof.
  intros d reverse x. split.
  - intros Hd. split; [reflexivity|]. intros p Hp. exact (@cumsum_value R CRing_R d reverse x p Hd Hp).
  - intros Hd. cbv zeta. set (z := o_fwd (op_cumsum (A := R * R) d reverse) [join2 x]). change (o_fwd (prim_op (complex_cumsum d reverse)) [x]) with (split2 z). destruct (join_split z) as [J1 J2]. split; [rewrite J1; reflexivity|]. intros p Hp. rewrite J2. rewrite J1 in Hp. apply cumsum_value; assumption.
Qed.
Print Assumptions C48_cumsum_values.
(* scatter_add adds all updates that land on an element; scatter_max and scatter_min take the extreme of the element and those updates *)
Theorem C48_scatter_values : forall (tgt : ix -> option ix) (x i u : nd R) (p : ix),
  at_ (o_fwd (prim_op (scatter_add tgt)) [x; i; u]) p = (at_ x p + total (selected u (lands tgt p)))%R /\
  largest (at_ x p :: selected u (lands tgt p)) (at_ (o_fwd (prim_op (scatter_max tgt)) [x; i; u]) p) /\
  smallest (at_ x p :: selected u (lands tgt p)) (at_ (o_fwd (prim_op (scatter_min tgt)) [x; i; u]) p) /\
  sh (o_fwd (prim_op (scatter_add tgt)) [x; i; u]) = sh x /\ sh (o_fwd (prim_op (scatter_max tgt)) [x; i; u]) = sh x /\ sh (o_fwd (prim_op (scatter_min tgt)) [x; i; u]) = sh x.
Proof.
  intros tgt x i u p. split; [|split; [|split; [|repeat split]]].
  - change (at_ (o_fwd (prim_op (scatter_add tgt)) [x; i; u]) p) with (suml (elems [x; i; u] (scat_grp tgt [sh x; sh i; sh u] p))). rewrite scat_elems, suml_total. reflexivity.
  - change (at_ (o_fwd (prim_op (scatter_max tgt)) [x; i; u]) p) with (maxr (elems [x; i; u] (scat_grp tgt [sh x; sh i; sh u] p))). rewrite scat_elems. apply maxr_largest. discriminate.
  - change (at_ (o_fwd (prim_op (scatter_min tgt)) [x; i; u]) p) with (minr (elems [x; i; u] (scat_grp tgt [sh x; sh i; sh u] p))). rewrite scat_elems. apply minr_smallest. discriminate.
Qed.
Print Assumptions C48_scatter_values.

(* ---- elementwise functions, by the equations that characterise them ---- *)
Definition unary_is (u : unary) (x y : R) : Prop :=
  (match u with
  | USin => y = sin x | UCos => y = cos x | UTan => y * cos x = sin x | UExp => y = exp x | UExpm1 => y + 1 = exp x | ULog => exp y = x | ULog1p => exp y = 1 + x
  | USqrt => 0 <= y /\ y * y = x | URsqrt => 0 < y /\ y * y * x = 1 | UTanh => y * (exp x + exp (- x)) = exp x - exp (- x) | ULogistic => y * (1 + exp (- x)) = 1
  | UAtan => - PI / 2 < y < PI / 2 /\ tan y = x | UAsin => - PI / 2 <= y <= PI / 2 /\ sin y = x | UAcos => 0 <= y <= PI /\ cos y = x
  | UPow k => y = x ^ k | UPowNeg k => y * x ^ k = 1 | USoftplus => exp y = 1 + exp x | USilu => y * (1 + exp (- x)) = x
  end)%R.
Lemma un_is u x : un_dom u x -> unary_is u x (un_f u x).
Proof.
  intros H. destruct u; cbn [unary_is un_f un_dom] in *; unfold logistic; try reflexivity.
  - field. exact H.
  - ring.
  - apply exp_ln. exact H.
  - apply exp_ln. exact H.
  - split; [apply sqrt_pos|apply sqrt_sqrt; lra].
  - assert (HS : (0 < sqrt x)%R) by (apply sqrt_lt_R0; exact H). split; [apply Rinv_0_lt_compat; exact HS|]. rewrite <- (sqrt_sqrt x) at 3 by lra. field. lra.
  - unfold tanh, sinh, cosh. pose proof (exp_pos x). pose proof (exp_pos (- x)). field. lra.
  - pose proof (exp_pos (- x)). field. lra.
  - split; [pose proof (atan_bound x); lra|apply tan_atan].
  - split; [pose proof (asin_bound x); lra|apply sin_asin; lra].
  - split; [apply acos_bound|apply cos_acos; lra].
  - field. apply pow_nonzero. exact H.
  - apply exp_ln. pose proof (exp_pos x). lra.
  - pose proof (exp_pos (- x)). field. lra.
Qed.
Lemma un_shape u (x : nd R) : sh (o_fwd (prim_op (PUn u)) [x]) = sh x.
Proof. cbn. apply rev_involutive. Qed.
Theorem C48_unary_values : forall (u : unary) (x : nd R), let y := o_fwd (prim_op (PUn u)) [x] in
  sh y = sh x /\ forall p, inb p (sh x) -> un_dom u (at_ x p) -> unary_is u (at_ x p) (at_ y p).
Proof.
  intros u x y. split; [apply un_shape|]. intros p Hp Hd. assert (E : at_ y p = un_f u (at_ x (bproj (sh x) p))) by reflexivity. rewrite bproj_same in E by exact Hp. rewrite E. apply un_is. exact Hd.
Qed.
Print Assumptions C48_unary_values.

(* two operands *)
Inductive binary_meaning : prim -> (R -> R -> R -> Prop) -> Prop :=
| bm_add : binary_meaning (PLin LAdd) (fun a b y => y = a + b)%R
| bm_sub : binary_meaning (PLin LSub) (fun a b y => y + b = a)%R
| bm_max : binary_meaning (PLin LMax) (fun a b y => largest [a; b] y)
| bm_min : binary_meaning (PLin LMin) (fun a b y => smallest [a; b] y)
| bm_mul : binary_meaning PMul (fun a b y => y = a * b)%R
| bm_div : binary_meaning PDiv (fun a b y => y * b = a)%R
| bm_pow : binary_meaning (PBin BPow) (fun a b y => 0 < y /\ ln y = b * ln a)%R
| bm_logaddexp : binary_meaning (PBin BLogaddexp) (fun a b y => exp y = exp a + exp b)%R
| bm_atan2 : binary_meaning atan2 (fun a b y => - PI < y < PI /\ sqrt (a * a + b * b) * sin y = a /\ sqrt (a * a + b * b) * cos y = b)%R.
Lemma carg_bound z : slit z -> (- PI < carg z < PI)%R.
Proof.
  pose proof PI_RGT_0 as HP. intros H. unfold carg. destruct (Rlt_dec 0 (fst z)); [pose proof (atan_bound (snd z / fst z)); lra|]. destruct (Rlt_dec 0 (snd z)) as [Hz|Hz].
  - pose proof (atan_bound (fst z / snd z)); lra.
  - pose proof (atan_bound (fst z / snd z)); lra.
Qed.
Theorem C48_binary_values : forall (k : prim) (M : R -> R -> R -> Prop) (a b : nd R) (s : shape), binary_meaning k M -> registered k [a; b] -> bshapes [sh a; sh b] = Some s ->
  let y := o_fwd (prim_op k) [a; b] in sh y = s /\ forall p, inb p s -> M (at_ a (bproj (sh a) p)) (at_ b (bproj (sh b) p)) (at_ y p).
Proof.
  intros k M a b s HM HR HB y.
  assert (HS : sh y = s). { unfold y. destruct HM; cbn [prim_op o_fwd sh ew_op atan2]; unfold op_mul, op_div; cbn [o_fwd ew_op sh]; unfold ew_shape; cbn [map]; rewrite HB; reflexivity. }
  split; [exact HS|]. intros p Hp. assert (HIB : bto (sh b) s) by (apply (proj1 (bshapes_spec _ HB)); right; left; reflexivity).
  pose proof (bproj_inb HIB Hp) as Hq. unfold y. set (u := at_ a (bproj (sh a) p)). set (v := at_ b (bproj (sh b) p)). assert (EV : ew_vals [a; b] p = [u; v]) by reflexivity.
  destruct HM; cbn [prim_op o_fwd at_ ew_op atan2]; unfold op_mul, op_div; cbn [o_fwd ew_op at_]; rewrite EV; cbn [lin_f bin_f v0 v1 nth atan2_f]; inversion HR; subst; try discriminate.
  - reflexivity.
  - unfold v0, v1. cbn [nth]. ring.
  - unfold v0, v1. cbn [nth]. exact (@maxr_largest [u; v] ltac:(discriminate)).
  - unfold v0, v1. cbn [nth]. exact (@minr_smallest [u; v] ltac:(discriminate)).
  - reflexivity.
  - assert (HZ : v <> 0%R) by (match goal with K : forall q, inb q _ -> _ <> 0%R |- _ => exact (K _ Hq) end). change (u * / v * v = u)%R. field. exact HZ.
  - unfold v0, v1. cbn [nth]. split; [apply exp_pos|apply ln_exp].
  - unfold v0, v1. cbn [nth]. apply exp_ln. pose proof (exp_pos u). pose proof (exp_pos v). lra.
  - assert (HZ : slit (v, u)). { assert (HD : (0 < v1 (ew_vals [a; b] p) \/ v0 (ew_vals [a; b] p) <> 0)%R) by (match goal with K : ew_dom _ _ |- _ => apply K; unfold ew_shape; cbn [map]; rewrite HB; exact Hp end). rewrite EV in HD. exact HD. }
    change (atan2_f [u; v]) with (carg (v, u)). split; [apply carg_bound; exact HZ|]. pose proof (cexp_cln HZ) as E. unfold cexp, cln in E. cbn [fst snd] in E. injection E as E1 E2.
    assert (EE : exp (ln (n2 (v, u)) / 2) = sqrt (u * u + v * v)).
    { pose proof (n2_pos (slit_nz HZ)) as HN. symmetry. apply sqrt_lem_1; [unfold n2 in HN; cbn [fst snd] in HN; lra|left; apply exp_pos|]. rewrite <- exp_plus. replace (ln (n2 (v, u)) / 2 + ln (n2 (v, u)) / 2)%R with (ln (n2 (v, u))) by field. rewrite exp_ln by exact HN. unfold n2. cbn [fst snd]. ring. }
    rewrite EE in E1, E2. split; assumption.
Qed.
Print Assumptions C48_binary_values.

(* ---- dot_general: element p is the sum of x[q] * y[r] over all pairs of positions with equal contracted coordinates whose batch coordinates, free coordinates of q and free
   coordinates of r make up p ---- *)
Definition meets (D : dims) (p : ix) (qr : ix * ix) : bool :=
  let (q, r) := qr in let pick := map (fun d => nth d q 0) in let pickr := map (fun d => nth d r 0) in
  (if list_eq_dec Nat.eq_dec (pick (lc D)) (pickr (rc D)) then true else false) && (if list_eq_dec Nat.eq_dec (pick (lb D)) (pickr (rb D)) then true else false) &&
  (if list_eq_dec Nat.eq_dec (pick (lb D) ++ drop_axes (lb D ++ lc D) 0 q ++ drop_axes (rb D ++ rc D) 0 r) p then true else false).
Lemma nodup_l {X} (l m : list X) : NoDup (l ++ m) -> NoDup l.
Proof. induction l as [|x l IH]; intros H; cbn in H; [constructor|]. inversion H; subst. constructor; [intros K; apply H2, in_or_app; left; exact K|auto]. Qed.
Lemma nodup_r {X} (l m : list X) : NoDup (l ++ m) -> NoDup m.
Proof. induction l as [|x l IH]; intros H; cbn in H; [exact H|]. inversion H; subst. auto. Qed.
Section Side3.
Context (n : nat) (b c : list nat) (HN : NoDup (b ++ c)) (HB : forall d, In d (b ++ c) -> d < n).
(* the index with coordinates P on the axes b, K on c and F on the others (proof device) *)
Definition side3 (P K F : ix) : ix := map (fun d => if mem d b then nth (pos d b) P 0 else if mem d c then nth (pos d c) K 0 else nth (pos d (keep_pos n (b ++ c))) F 0) (seq 0 n).
Lemma side3_nth P K F d : d < n -> nth d (side3 P K F) 0 = if mem d b then nth (pos d b) P 0 else if mem d c then nth (pos d c) K 0 else nth (pos d (keep_pos n (b ++ c))) F 0.
Proof. intros Hd. unfold side3. rewrite (@nth_map_in _ _ _ (seq 0 n) d 0) by (rewrite seq_length; exact Hd). rewrite seq_nth by exact Hd. reflexivity. Qed.
Lemma side3_b P K F : length P = length b -> permute b (side3 P K F) = P.
Proof.
  intros HL. unfold permute. apply nth_ext with (d := 0) (d' := 0); rewrite map_length; [auto|]. intros k Hk. rewrite (@nth_map_in _ _ _ b k 0) by exact Hk. assert (HI : In (nth k b 0) b) by (apply nth_In; exact Hk).
  rewrite side3_nth by (apply HB, in_or_app; left; exact HI). rewrite (proj2 (mem_In _ _) HI). rewrite pos_nth; [reflexivity|exact (nodup_l _ _ HN)|exact Hk].
Qed.
Lemma side3_c P K F : length K = length c -> permute c (side3 P K F) = K.
Proof.
  intros HL. unfold permute. apply nth_ext with (d := 0) (d' := 0); rewrite map_length; [auto|]. intros k Hk. rewrite (@nth_map_in _ _ _ c k 0) by exact Hk. assert (HI : In (nth k c 0) c) by (apply nth_In; exact Hk).
  rewrite side3_nth by (apply HB, in_or_app; right; exact HI). assert (HX : ~ In (nth k c 0) b). { intros HX. clear -HN HI HX. induction b as [|d l IH]; [destruct HX|]. cbn in HN. inversion HN; subst. destruct HX as [->|HX]; [apply H1, in_or_app; right; exact HI|apply IH; assumption]. }
  rewrite (proj2 (mem_nIn _ _) HX), (proj2 (mem_In _ _) HI). rewrite pos_nth; [reflexivity|exact (nodup_r _ _ HN)|exact Hk].
Qed.
Lemma side3_f P K F : length F = length (keep_pos n (b ++ c)) -> permute (keep_pos n (b ++ c)) (side3 P K F) = F.
Proof.
  intros HL. unfold permute. apply nth_ext with (d := 0) (d' := 0); rewrite map_length; [auto|]. intros k Hk. rewrite (@nth_map_in _ _ _ (keep_pos n (b ++ c)) k 0) by exact Hk. assert (HI : In (nth k (keep_pos n (b ++ c)) 0) (keep_pos n (b ++ c))) by (apply nth_In; exact Hk).
  apply keep_pos_In in HI. destruct HI as [H1 H2]. rewrite side3_nth by exact H1. rewrite in_app_iff in H2. rewrite (proj2 (mem_nIn _ _)), (proj2 (mem_nIn _ _)) by tauto. rewrite pos_nth; [reflexivity|apply keep_pos_NoDup|exact Hk].
Qed.
Lemma side3_back q : length q = n -> side3 (permute b q) (permute c q) (permute (keep_pos n (b ++ c)) q) = q.
Proof.
  intros HL. apply nth_ext with (d := 0) (d' := 0); [unfold side3; rewrite map_length, seq_length; auto|]. intros d Hd. unfold side3 in Hd. rewrite map_length, seq_length in Hd. rewrite side3_nth by exact Hd. unfold permute. destruct (mem d b) eqn:E1.
  - apply mem_In in E1. rewrite (@nth_map_in _ _ _ b (pos d b) 0) by (apply pos_lt; exact E1). rewrite nth_pos by exact E1. reflexivity.
  - destruct (mem d c) eqn:E2.
    + apply mem_In in E2. rewrite (@nth_map_in _ _ _ c (pos d c) 0) by (apply pos_lt; exact E2). rewrite nth_pos by exact E2. reflexivity.
    + apply mem_nIn in E1. apply mem_nIn in E2. assert (HI : In d (keep_pos n (b ++ c))) by (apply keep_pos_In; split; [exact Hd|]; rewrite in_app_iff; tauto).
      rewrite (@nth_map_in _ _ _ (keep_pos n (b ++ c)) _ 0) by (apply pos_lt; exact HI). rewrite nth_pos by exact HI. reflexivity.
Qed.
End Side3.
Section DotVal.
Context (D : dims) (sl sr : shape) (HD : dims_ok D sl sr).
Lemma lix_3 P Fl Fr K : length P = length (lb D) -> length Fl = length (lf D sl) -> lix D sl (P ++ Fl ++ Fr) K = side3 (length sl) (lb D) (lc D) P K Fl.
Proof.
  intros HP HF. unfold lix, side3. apply map_ext_in. intros d Hd. apply in_seq in Hd. destruct (mem d (lb D)) eqn:E1.
  - apply mem_In in E1. rewrite app_nth1; [reflexivity|]. rewrite HP. apply pos_lt. exact E1.
  - destruct (mem d (lc D)) eqn:E2; [reflexivity|]. apply mem_nIn in E1. apply mem_nIn in E2. assert (HI : In d (lf D sl)) by (unfold lf; apply free_In; split; [lia|split; assumption]). pose proof (pos_lt _ _ HI) as HLt. rewrite app_nth2 by (rewrite HP; lia). rewrite app_nth1 by (rewrite HP, HF; lia). rewrite HP. f_equal. unfold lf, free_dims. lia.
Qed.
Lemma rix_3 P Fl Fr K : length P = length (rb D) -> length Fl = length (lf D sl) -> length Fr = length (rf D sr) -> rix D sl sr (P ++ Fl ++ Fr) K = side3 (length sr) (rb D) (rc D) P K Fr.
Proof.
  intros HP HF HR. unfold rix, side3. apply map_ext_in. intros d Hd. apply in_seq in Hd. destruct (mem d (rb D)) eqn:E1.
  - apply mem_In in E1. rewrite app_nth1; [reflexivity|]. rewrite HP. apply pos_lt. exact E1.
  - destruct (mem d (rc D)) eqn:E2; [reflexivity|]. apply mem_nIn in E1. apply mem_nIn in E2. assert (HI : In d (rf D sr)) by (unfold rf; apply free_In; split; [lia|split; assumption]). pose proof (pos_lt _ _ HI) as HLt. rewrite app_nth2 by (rewrite HP; lia). rewrite app_nth2 by (rewrite HP, HF; lia). rewrite HP, HF. f_equal. unfold rf, free_dims. lia.
Qed.
Lemma drop_l q : length q = length sl -> drop_axes (lb D ++ lc D) 0 q = permute (lf D sl) q.
Proof. intros H. rewrite drop_permute, H. reflexivity. Qed.
Lemma drop_r r : length r = length sr -> drop_axes (rb D ++ rc D) 0 r = permute (rf D sr) r.
Proof. intros H. rewrite drop_permute, H. reflexivity. Qed.
Lemma meets_iff p q r : meets D p (q, r) = true <-> permute (lc D) q = permute (rc D) r /\ permute (lb D) q = permute (rb D) r /\ permute (lb D) q ++ drop_axes (lb D ++ lc D) 0 q ++ drop_axes (rb D ++ rc D) 0 r = p.
Proof.
  unfold meets. fold (permute (lc D) q) (permute (rc D) r) (permute (lb D) q) (permute (rb D) r). repeat destruct (list_eq_dec Nat.eq_dec _ _); cbn; intuition congruence.
Qed.
Lemma dot_perm p : inb p (dot_shape D sl sr) -> Permutation (map (fun c => (lix D sl p c, rix D sl sr p c)) (allix (permute (lc D) sl))) (filter (meets D p) (list_prod (allix sl) (allix sr))).
Proof.
  intros Hp. pose proof HD as (N1 & N2 & N3 & N4 & L1 & L2 & S1 & S2).
  assert (HS : exists P Fl Fr, p = P ++ Fl ++ Fr /\ length P = length (lb D) /\ length Fl = length (lf D sl) /\ length Fr = length (rf D sr)).
  { pose proof (inb_length Hp) as HL. unfold dot_shape in HL. rewrite !app_length, !permute_length in HL. exists (firstn (length (lb D)) p), (firstn (length (lf D sl)) (skipn (length (lb D)) p)), (skipn (length (lf D sl)) (skipn (length (lb D)) p)).
    rewrite !firstn_skipn. split; [reflexivity|]. rewrite !firstn_length, !skipn_length. lia. }
  destruct HS as (P & Fl & Fr & -> & HP & HFl & HFr). apply NoDup_Permutation.
  - assert (K : forall l, NoDup l -> (forall c, In c l -> length c = length (lc D)) -> NoDup (map (fun c => (lix D sl (P ++ Fl ++ Fr) c, rix D sl sr (P ++ Fl ++ Fr) c)) l)).
    { induction l as [|c l IH]; intros N HC; cbn [map]; [constructor|]. inversion N as [|? ? M1 M2]; subst. constructor; [|apply IH; [assumption|intros; apply HC; right; assumption]]. intros Hin. apply in_map_iff in Hin. destruct Hin as (c' & E & Hc'). apply M1. injection E as E _.
      rewrite !lix_3 in E by assumption. apply (f_equal (permute (lc D))) in E. rewrite (@side3_c (length sl) (lb D) (lc D) N1 N2 P c' Fl (HC c' (or_intror Hc'))), (@side3_c (length sl) (lb D) (lc D) N1 N2 P c Fl (HC c (or_introl eq_refl))) in E. subst c'. exact Hc'. }
    apply K; [apply allix_NoDup|]. intros c Hc. apply allix_spec in Hc. rewrite (inb_length Hc). apply permute_length.
  - apply NoDup_filter. assert (K : forall l m : list ix, NoDup l -> NoDup m -> NoDup (list_prod l m)).
    { induction l as [|x l IH]; intros m Nl Nm; cbn; [constructor|]. inversion Nl; subst. apply NoDup_app_intro; [apply FinFun.Injective_map_NoDup; [intros u v; congruence|exact Nm]|apply IH; assumption|]. intros [u v] Hu Hv. apply in_map_iff in Hu. destruct Hu as (w & E & _). injection E as <- _. apply in_prod_iff in Hv. destruct Hv. contradiction. }
    apply K; apply allix_NoDup.
  - intros [q r]. rewrite in_map_iff, filter_In, in_prod_iff, !allix_spec, meets_iff. split.
    + intros (c & E & Hc). apply allix_spec in Hc. assert (HC : length c = length (lc D)) by (rewrite (inb_length Hc); apply permute_length).
      pose proof (lix_in HD Hp Hc) as HQ. pose proof (rix_in HD Hp Hc) as HR. injection E as <- <-. split; [split; assumption|].
      rewrite drop_l by apply (inb_length HQ). rewrite drop_r by apply (inb_length HR). rewrite !lix_3, !rix_3 by (assumption || congruence). rewrite !side3_c, !side3_b by (assumption || congruence). unfold lf, rf, free_dims. rewrite !side3_f by assumption. auto.
    + intros [[Hq Hr] (E1 & E2 & E3)]. pose proof (inb_length Hq) as Lq. pose proof (inb_length Hr) as Lr. rewrite drop_l in E3 by exact Lq. rewrite drop_r in E3 by exact Lr.
      exists (permute (lc D) q). split; [|apply allix_spec, permute_inb; [intros d Hd; apply N2, in_or_app; right; exact Hd|exact Hq]]. rewrite <- E3. f_equal.
      * rewrite lix_3 by (rewrite permute_length; reflexivity). apply side3_back; auto.
      * rewrite E2. rewrite rix_3 by (rewrite permute_length; congruence). rewrite E1. apply side3_back; auto.
Qed.
End DotVal.
Lemma dot_value_gen {A} {RA : CRing A} (D : dims) (x y : nd A) : dims_ok D (sh x) (sh y) -> let z := o_fwd (op_dotc D) [x; y] in
  sh z = dot_shape D (sh x) (sh y) /\ forall p, inb p (sh z) -> at_ z p = total (map (fun qr => rmul (at_ x (fst qr)) (at_ y (snd qr))) (filter (meets D p) (list_prod (allix (sh x)) (allix (sh y))))).
Proof.
  intros HD z. split; [reflexivity|]. intros p Hp. change (inb p (dot_shape D (sh x) (sh y))) in Hp. unfold z, op_dotc. cbn [o_fwd]. rewrite canon_at by exact Hp.
  change (at_ (o_fwd (op_dot D) [x; y]) p) with (sumL (allix (permute (lc D) (sh x))) (fun c => rmul (at_ x (lix D (sh x) p c)) (at_ y (rix D (sh x) (sh y) p c)))). rewrite sumL_total. apply total_perm.
  rewrite <- (map_map (fun c => (lix D (sh x) p c, rix D (sh x) (sh y) p c)) (fun qr => rmul (at_ x (fst qr)) (at_ y (snd qr)))). apply Permutation_map. apply dot_perm; assumption.
Qed.
(* the shape: batch sizes, then the sizes of the free axes of x, then those of y *)
Theorem C48_dot_general_values : forall (D : dims) (x y : nd R), dims_ok D (sh x) (sh y) -> let z := o_fwd (prim_op (PDot D)) [x; y] in
  sh z = map (fun d => nth d (sh x) 0) (lb D) ++ drop_axes (lb D ++ lc D) 0 (sh x) ++ drop_axes (rb D ++ rc D) 0 (sh y) /\
  forall p, inb p (sh z) -> at_ z p = total (map (fun qr => (at_ x (fst qr) * at_ y (snd qr))%R) (filter (meets D p) (list_prod (allix (sh x)) (allix (sh y))))).
Proof.
  intros D x y HD z. destruct (@dot_value_gen R CRing_R D x y HD) as [H1 H2]. split; [|exact H2]. rewrite (@drop_l D (sh x)), (@drop_r D (sh y)) by reflexivity. exact H1.
Qed.
Print Assumptions C48_dot_general_values.
Theorem C48_complex_dot_general_values : forall (D : dims) (x y : nd R), dims_ok D (sh (join2 x)) (sh (join2 y)) -> let z := join2 (o_fwd (prim_op (PCplx (CKern (KDot D)))) [x; y]) in
  sh z = map (fun d => nth d (sh (join2 x)) 0) (lb D) ++ drop_axes (lb D ++ lc D) 0 (sh (join2 x)) ++ drop_axes (rb D ++ rc D) 0 (sh (join2 y)) /\
  forall p, inb p (sh z) -> at_ z p = total (map (fun qr => rmul (at_ (join2 x) (fst qr)) (at_ (join2 y) (snd qr))) (filter (meets D p) (list_prod (allix (sh (join2 x))) (allix (sh (join2 y)))))).
Proof.
  intros D x y HD z. destruct (@dot_value_gen (R * R) _ D (join2 x) (join2 y) HD) as [H1 H2]. unfold z. change (o_fwd (prim_op (PCplx (CKern (KDot D)))) [x; y]) with (split2 (o_fwd (op_dotc D) [join2 x; join2 y])).
  destruct (join_split (o_fwd (op_dotc D) [join2 x; join2 y])) as [J1 J2]. split; [rewrite J1, (@drop_l D (sh (join2 x))), (@drop_r D (sh (join2 y))) by reflexivity; exact H1|]. intros p Hp. rewrite J2. rewrite J1 in Hp. apply H2. exact Hp.
Qed.
Print Assumptions C48_complex_dot_general_values.

(* ---- examples ---- *)
Example C48_values_hypotheses_met : ([0] <> [] /\ NoDup [0] /\ forall d, In d [0] -> d < ndim exr) /\ (registered atan2 [exr; exr] /\ bshapes [sh exr; sh exr] = Some [3]) /\ dims_ok (Dims [1] [0] [] []) [2; 3] [3; 4] /\
  selected exr (up_to 0 true [1]) = [3; 2]%R /\ selected exr (up_to 0 false [1]) = [1; 3]%R /\
  filter (meets (Dims [1] [0] [] []) [1; 3]) (list_prod (allix [2; 3]) (allix [3; 4])) = [([1; 0], [0; 3]); ([1; 1], [1; 3]); ([1; 2], [2; 3])].
Proof.
  split; [split; [discriminate|]; split; [repeat constructor; intros []|]; intros d [<-|[]]; cbn; lia|]. split; [split; [apply C48_hypotheses_met|reflexivity]|].
  split; [repeat split; cbn; try reflexivity; try (repeat constructor; cbn; intuition lia); intros d Hd; intuition lia|]. repeat split; reflexivity.
Qed.
