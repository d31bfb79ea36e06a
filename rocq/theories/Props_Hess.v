(* Props_Hess.v : property theorems about the second-order term tr(J H J^T) (C16 - C23, C41, C42).
   [hspec n f args p] (HessSpec.v) = sum over all n inputs i of  sum_{a,q,b,r} d2 out[p]/dx_a[q]dx_b[r] * J_a[i,q] * J_b[i,r].
   [jhj_ok n f args r]: r broadcasts to the output shape and is that sum at every output position. *)
From Coq Require Import Reals.
From Verif Require Import Check HessForms.
Set Implicit Arguments.
Local Open Scope cr_scope.

Definition all_or_none_sparse {A} (args : list (lapl A)) : Prop := all_weak args = true \/ any_weak args = false.
Definition gotn (o : option (nd Z)) : nd Z := match o with Some r => r | None => nd0 end.
Lemma gotn_ok o : match o with Some _ => true | None => false end = true -> o = Some (gotn o).
Proof. destruct o; cbn; congruence. Qed.
Definition showf (o : option (nd Z)) : option (shape * list Z) := option_map (fun r => (sh r, flat r)) o.

(* ---- C16 ---- *)
Theorem C16_trace_exact : forall (A : Type) (RA : CRing A) (n : nat) (f : op A) (complex_to_real : bool) (fl : flags) (extra : list (nd A))
    (axs eaxs : list (list nat)) (mg : mergefn) (threshold : Z) (args : list (lapl A)) (r : nd A),
  setup n f mg args axs extra eaxs -> has LINEAR_IN_ONE fl = false -> all_or_none_sparse args ->
  vmapped_jhj f complex_to_real fl None extra axs eaxs mg threshold args = Some r ->
  jhj_ok n (merged f mg (length args) extra) args r.
Proof.
  intros A RA n f c2r fl extra axs eaxs mg th args r HS HL HA H. refine (@vmapped_general A RA n f c2r fl extra axs eaxs mg th args r HS HL _ H).
  destruct HA as [HA|HA]; [right|left; exact HA]. intros a Ha E. unfold all_weak in HA. rewrite forallb_forall in HA. rewrite (HA a Ha) in E. discriminate.
Qed.
Print Assumptions C16_trace_exact.
(* whatever materialised Jacobians g2 (one matrix of R rows per argument) are used, the three strategies return the same number *)
Theorem C16_strategies_agree : forall (A : Type) (RA : CRing A) (f : op A) (xs : list (nd A)) (R : nat) (g : nat -> nat -> ix -> A) (g2 : list (nd A)) (G : nd A) (c : ix),
  red_ok (map (@sh A) xs) R g g2 -> xs <> [] -> G = concat0 0 (map (transpose [1%nat; 0%nat]) g2) ->
  let T := sumn R (fun r => quad f xs c (fun a q => g a r q) (fun a q => g a r q)) in
  JHJ_via_hessian f xs G (rows G) R c = T /\ JHJ_via_trace f xs G (rows G) R c = T /\ JHJ_via_hvp f xs G (rows G) R c = T.
Proof. intros A RA f xs R g g2 G c H1 H2 H3. exact (proj2 (@general_sum A RA f xs R g g2 G c H1 H2 H3)). Qed.
Print Assumptions C16_strategies_agree.
(* (x + y)^2 elementwise, x = inputs 0..2 (sparse), y = inputs 1,2,0 (sparse): every element depends on two of the three inputs *)
Definition op_sqsum : op Z := ew_op (fun v => (nth 0%nat v 0 + nth 1%nat v 0) * (nth 0%nat v 0 + nth 1%nat v 0))
  (fun v a => if (a <? 2)%nat then (1 + 1) * (nth 0%nat v 0 + nth 1%nat v 0) else 0) (fun _ a b => if ((a <? 2) && (b <? 2))%nat then 1 + 1 else 0).
Definition ex3a : lapl Z := sp [3]%nat [1; 2; 3]%Z 1 [0; 1; 2]%Z [1; 1; 1]%Z [0; 0; 0]%Z.
Definition ex3b : lapl Z := sp [3]%nat [2; 3; 1]%Z 1 [1; 2; 0]%Z [1; 1; 5]%Z [0; 0; 0]%Z.
Example C16_hypotheses_met : setup 3 op_sqsum mgtt [ex3a; ex3b] [[]; []] [] [] /\ all_or_none_sparse [ex3a; ex3b] /\
  showf (vmapped_jhj op_sqsum false 0%Z None [] [[]; []] [] mgtt 3 [ex3a; ex3b]) = Some ([3]%nat, [4; 4; 52]%Z) /\
  showf (vmapped_jhj op_sqsum false 0%Z None [] [[]; []] [] mgtt 1 [ex3a; ex3b]) = Some ([3]%nat, [4; 4; 52]%Z).
Proof.
  split; [|split; [left; reflexivity|split; vmr]].
  refine (@setup_ew _ _ 3 _ _ _ [true; true] [ex3a; ex3b] [] _ _ _ _ _ _); try reflexivity; try lia; try discriminate. apply forall_awf. reflexivity.
Qed.

(* ---- C17: one sparse and one dense argument ---- *)
(* proved when every dense Jacobian stores a row for every input, or at least as many rows as the threshold (which is the case for the dense
   Jacobians that folx itself creates when it exceeds the threshold, see C02) *)
Theorem C17_mixed_partial : forall (A : Type) (RA : CRing A) (n : nat) (f : op A) (complex_to_real : bool) (fl : flags) (extra : list (nd A))
    (axs eaxs : list (list nat)) (mg : mergefn) (threshold : Z) (args : list (lapl A)) (r : nd A),
  setup n f mg args axs extra eaxs -> has LINEAR_IN_ONE fl = false ->
  has SPARSE_JHJ fl = false ->
  (forall a, In a args -> weak (ljac a) = false -> rows (jdata (ljac a)) = n \/ (threshold <= Z.of_nat (rows (jdata (ljac a))))%Z) ->
  vmapped_jhj f complex_to_real fl None extra axs eaxs mg threshold args = Some r ->
  jhj_ok n (merged f mg (length args) extra) args r.
Proof. intros A RA n f c2r fl extra axs eaxs mg th args r HS HL HF HA H. refine (@vmapped_general A RA n f c2r fl extra axs eaxs mg th args r HS HL (or_intror _) H). intros a Ha Hw. destruct (HA a Ha Hw); [left|right]; auto. Qed.
Print Assumptions C17_mixed_partial.
Definition ex3d : lapl Z := de [3]%nat [2; 3; 1]%Z 3 [0; 0; 5; 1; 0; 0; 0; 1; 0]%Z [0; 0; 0]%Z.
Definition ex3d1 : lapl Z := de [3]%nat [1; 1; 1]%Z 1 [1; 1; 1]%Z [0; 0; 0]%Z.
Lemma setup3 b : awfb 3 b = true -> sh (lx b) = [3]%nat -> setup 3 op_sqsum mgtt [ex3a; b] [[]; []] [] [].
Proof.
  intros Hb Hs. refine (@setup_ew _ _ 3 _ _ _ [true; true] [ex3a; b] [] _ _ _ _ _ _); try reflexivity; try lia; try discriminate.
  - apply forall_awf. cbn [forallb]. rewrite Hb. reflexivity.
  - cbn. rewrite Hs. discriminate.
Qed.
Example C17_hypotheses_met : setup 3 op_sqsum mgtt [ex3a; ex3d] [[]; []] [] [] /\ weak (ljac ex3a) = true /\ weak (ljac ex3d) = false /\
  showf (vmapped_jhj op_sqsum false 0%Z None [] [[]; []] [] mgtt 3 [ex3a; ex3d]) = Some ([3]%nat, [4; 4; 52]%Z).
Proof. split; [apply setup3; reflexivity|]. split; [reflexivity|]. split; [reflexivity|vmr]. Qed.
(* A dense Jacobian that stores only row 0 (y depends on input 0 only; this is what densifying an array that depends on input 0 gives):
   for (x_j + y)^2 the term at j = 2 must be 2 (input 0: y alone) + 2 (input 2: x_2 alone) = 4, folx returns 10. *)
Theorem C17_mixed_refuted : exists (f : op Z) (args : list (lapl Z)) (r : nd Z),
  setup 3 f mgtt args [[]; []] [] [] /\ truthful f 0%Z (mgtt (xs_of args) []) /\
  vmapped_jhj f false 0%Z None [] [[]; []] [] mgtt 3 args = Some r /\
  hspec 3 (merged f mgtt 2 []) args [2%nat] = 4%Z /\ at_ r [2%nat] = 10%Z.
Proof.
  exists op_sqsum, [ex3a; ex3d1], (gotn (vmapped_jhj op_sqsum false 0%Z None [] [[]; []] [] mgtt 3 [ex3a; ex3d1])).
  split; [apply setup3; reflexivity|]. split; [split; [|split]; intros H; vm_compute in H; discriminate H|].
  split; [apply gotn_ok; vmr|]. split; vmr.
Qed.
Print Assumptions C17_mixed_refuted.

(* ---- C18: products ---- *)
Theorem C18_products_exact : forall (A : Type) (RA : CRing A) (n : nat) (f : op A) (complex_to_real : bool) (fl : flags) (extra : list (nd A))
    (axs eaxs : list (list nat)) (mg : mergefn) (threshold : Z) (args : list (lapl A)) (r : nd A),
  setup n f mg args axs extra eaxs -> has MULTIPLICATION fl = true -> dot_core f mg axs (xs_of args) (length extra) ->
  (has DOT_PRODUCT fl && forallb (fun a => Nat.eqb (length a) 1) axs = true -> last_axes f mg axs args extra) ->
  vmapped_jhj f complex_to_real fl None extra axs eaxs mg threshold args = Some r ->
  jhj_ok n (merged f mg (length args) extra) args r.
Proof. exact @vmapped_dot. Qed.
Print Assumptions C18_products_exact.
(* lax.mul of any two derivative-carrying arrays with broadcasting, sparse or dense in any mix, any threshold *)
Theorem C18_mul_exact : forall (A : Type) (RA : CRing A) (n : nat) (a b : lapl A) (complex_to_real : bool) (threshold : Z) (r : nd A),
  (0 < n)%nat -> awf n a -> awf n b -> bshapes [sh (lx a); sh (lx b)] <> None ->
  vmapped_jhj op_mul complex_to_real MULTIPLICATION None [] [[]; []] [] mgtt threshold [a; b] = Some r ->
  let out := sh (o_fwd op_mul [lx a; lx b]) in
  bto (sh r) out /\ forall p, inb p out ->
    at_ r (bproj (sh r) p) = (1 + 1) * sumn n (fun i => jent (ljac a) i (bproj (sh (lx a)) p) * jent (ljac b) i (bproj (sh (lx b)) p)).
Proof.
  intros A RA n a b c2r th r Hn Wa Wb HB H out.
  assert (HS : setup n op_mul mgtt [a; b] [[]; []] [] []).
  { refine (@setup_ew A RA n _ _ _ [true; true] [a; b] [] Hn _ _ _ _ _); try reflexivity; try discriminate; [|exact HB]. intros x [<-|[<-|[]]]; auto. }
  destruct (@vmapped_dot A RA n op_mul c2r MULTIPLICATION [] [[]; []] [] mgtt th [a; b] r HS eq_refl (@mul_dot_core A RA mgtt (lx a) (lx b) (su_mg HS))) as [H1 H2]; [discriminate|exact H|].
  split; [exact H1|]. intros p Hp. rewrite <- hspec_mul by auto. apply H2. exact Hp.
Qed.
Print Assumptions C18_mul_exact.
(* the contraction of dot_general, einsum('...i,...i->...'), registered with in_axes=-1 and DOT_PRODUCT | JOIN_JVP | SPARSE_JHJ = 827.
   Two arrays of the same rank, as dot_general produces them. *)
Theorem C18_dot_exact : forall (A : Type) (RA : CRing A) (n : nat) (a b : lapl A) (px py : shape) (K : nat) (complex_to_real : bool) (threshold : Z) (r : nd A),
  (0 < n)%nat -> awf n a -> awf n b -> sh (lx a) = px ++ [K] -> sh (lx b) = py ++ [K] -> bshapes [px; py] <> None ->
  length px = length py ->
  vmapped_jhj op_dotlast complex_to_real 827%Z None [] [[length px]; [length py]] [] mgtt threshold [a; b] = Some r ->
  let out := sh (o_fwd op_dotlast [lx a; lx b]) in
  bto (sh r) out /\ forall p, inb p out ->
    at_ r (bproj (sh r) p) = (1 + 1) * sumn n (fun i => sumn K (fun k => jent (ljac a) i (bproj px p ++ [k]) * jent (ljac b) i (bproj py p ++ [k]))).
Proof.
  intros A RA n a b px py K c2r th r Hn Wa Wb Ha Hb HB HL H out.
  assert (Nx : (ndim (lx a) - 1)%nat = length px) by (unfold ndim; rewrite Ha, app_length; cbn; lia).
  assert (Ny : (ndim (lx b) - 1)%nat = length py) by (unfold ndim; rewrite Hb, app_length; cbn; lia).
  assert (EL : [[length px]; [length py]] = lasts [lx a; lx b]) by (unfold lasts; cbn [map]; rewrite Nx, Ny; reflexivity).
  assert (Hm : merge_ok mgtt 2 0) by apply (merge_of_ok [true; true]).
  assert (HB2 : bshape2 px py <> None).
  { intros E. apply HB. unfold bshapes. cbn [fold_left]. change (bshape2 [] px) with (option_map (@rev nat) (Some (rev px))). cbn [option_map]. rewrite rev_involutive. exact E. }
  assert (HS : setup n op_dotlast mgtt [a; b] [[length px]; [length py]] [] []).
  { split; auto; try discriminate.
    - intros x [<-|[<-|[]]]; auto.
    - split; [reflexivity|]. intros i Hi. destruct i as [|[|i]]; cbn [nth xs_of map length] in *; try lia; (split; [repeat constructor; intros []|intros d [<-|[]]; unfold ndim; rewrite ?Ha, ?Hb, app_length; cbn; lia]).
    - split; [reflexivity|]. intros i Hi. cbn in Hi. lia.
    - cbn. change ([[length px]; [length py]]) with ([[length px]; [length py]] ++ []). rewrite app_nil_r, EL. eapply dotlast_batched; eauto. }
  destruct (@vmapped_dot A RA n op_dotlast c2r 827%Z [] [[length px]; [length py]] [] mgtt th [a; b] r HS eq_refl) as [G1 G2].
  - rewrite EL. exact (@dotlast_core A RA mgtt (lx a) (lx b) px py K Hm Ha Hb).
  - intros _. split; [cbn [map]; rewrite Nx, Ny; reflexivity|]. intros _. split; [reflexivity|]. exists (length px). split.
    + intros x [<-|[<-|[]]]; unfold ndim; rewrite ?Ha, ?Hb, app_length; cbn; lia.
    + right. exact (@dotlast_scalar A RA a b px py K Ha Hb HL HB2).
  - exact H.
  - split; [exact G1|]. intros p Hp. rewrite <- (@hspec_dotlast A RA n a b px py K p Ha Hb HB Hp). apply G2. exact Hp.
Qed.
Print Assumptions C18_dot_exact.
(* x sparse of shape (3), s sparse of shape (): disjoint and overlapping dependencies; a 2x2 against a 1x2 contraction *)
Definition ex22 : lapl Z := sp [2; 2]%nat [1; 2; 3; 4]%Z 2 [0; 1; 2; 1; 3; -1; 0; 3]%Z [5; 6; 7; 8; 9; 0; 11; 12]%Z [1; 1; 1; 1]%Z.
Definition ex12 : lapl Z := sp [1; 2]%nat [10; 20]%Z 2 [0; 1; 3; -1]%Z [2; 9; 4; 0]%Z [1; 1]%Z.
Example C18_hypotheses_met : awf 3 ex3a /\ awf 3 ex3b /\ awf 3 ex3d1 /\
  showf (vmapped_jhj op_mul false MULTIPLICATION None [] [[]; []] [] mgtt 3 [ex3a; ex3b]) = Some ([], [0]%Z) /\
  showf (vmapped_jhj op_mul false MULTIPLICATION None [] [[]; []] [] mgtt 3 [ex3a; ex3d1]) = Some ([3]%nat, [2; 0; 0]%Z) /\
  showf (vmapped_jhj op_mul false MULTIPLICATION None [] [[]; []] [] mgtt 3 [ex3a; ex3a]) = Some ([3]%nat, [2; 2; 2]%Z).
Proof. split; [apply awfb_ok; reflexivity|]. split; [apply awfb_ok; reflexivity|]. split; [apply awfb_ok; reflexivity|]. split; [vmr|split; vmr]. Qed.
Definition exr (l : list Z) : lapl Z := sp [4; 2]%nat [1; 2; 3; 4; 5; 6; 7; 8]%Z 1 l [1; 1; 1; 1; 1; 1; 1; 1]%Z [0; 0; 0; 0; 0; 0; 0; 0]%Z.
Example C18_dot_hypotheses_met : awf 4 ex22 /\ awf 4 ex12 /\ awf 8 (exr [0; 1; 2; 3; 4; 5; 6; 7]%Z) /\ awf 8 (exr [7; 6; 3; 2; 1; 0; 0; 1]%Z) /\
  showf (vmapped_jhj op_dotlast false 827%Z None [] [[1%nat]; [1%nat]] [] mgtt 4 [ex22; ex12]) = Some ([2]%nat, [200; 188]%Z) /\
  (* two of the four rows share no input and are removed before the contraction *)
  showf (vmapped_jhj op_dotlast false 827%Z None [] [[1%nat]; [1%nat]] [] mgtt 4 [exr [0; 1; 2; 3; 4; 5; 6; 7]%Z; exr [0; 6; 3; 3; 1; 0; 0; 1]%Z]) = Some ([4]%nat, [2; 2; 0; 0]%Z).
Proof. split; [apply awfb_ok; reflexivity|]. split; [apply awfb_ok; reflexivity|]. split; [apply awfb_ok; reflexivity|]. split; [apply awfb_ok; reflexivity|]. split; vmr. Qed.

(* ---- C19: LINEAR_IN_ONE without MULTIPLICATION ---- *)
(* Proved only when each argument is a scalar and one Jacobian row is materialised (e.g. a single input, or one shared input per element);
   the code multiplies the Hessian block with J_1 J_2^T over the input axis instead of the argument axes. *)
Theorem C19_bilinear_partial : forall (A : Type) (RA : CRing A) (n : nat) (f : op A) (a b : lapl A) (idx : option (nd Z)) (r : nd A),
  (0 < n)%nat -> awf n a -> awf n b -> sh (lx a) = [] -> sh (lx b) = [] -> idx_covers n [a; b] idx ->
  (forall x, In x [0; 1]%nat -> linear_in f [lx a; lx b] x) ->
  (forall p, inb p (sh (o_fwd f [lx a; lx b])) -> o_h f [lx a; lx b] p 0%nat [] 1%nat [] = o_h f [lx a; lx b] p 1%nat [] 0%nat []) ->
  (forall l, get_reduced_jacobians [ljac a; ljac b] idx = Some l -> forall x, In x l -> rows x = 1%nat) ->
  off_diag_jhj f [a; b] idx = Some r ->
  sh r = sh (o_fwd f [lx a; lx b]) /\ forall p, inb p (sh r) -> at_ r p = hspec n f [a; b] p.
Proof. exact @off_diag_scalar. Qed.
Print Assumptions C19_bilinear_partial.
Definition op_x0y1 : op Z := Op (fun xs => Nd [] (fun _ => at_ (nth 0 xs nd0) [0%nat] * at_ (nth 1 xs nd0) [1%nat]))
  (fun xs _ a q => match a, q with O, [O] => at_ (nth 1 xs nd0) [1%nat] | S O, [S O] => at_ (nth 0 xs nd0) [0%nat] | _, _ => 0 end)
  (fun _ _ a q b r => match a, q, b, r with O, [O], S O, [S O] => 1 | S O, [S O], O, [O] => 1 | _, _, _, _ => 0 end).
Definition exc0 : lapl Z := de [] [5]%Z 1 [3]%Z [0]%Z.
Definition exc1 : lapl Z := de [] [7]%Z 1 [2]%Z [0]%Z.
Example C19_hypotheses_met : awf 1 exc0 /\ awf 1 exc1 /\ (forall x, In x [0; 1]%nat -> linear_in op_mul [lx exc0; lx exc1] x) /\
  (forall l, get_reduced_jacobians [ljac exc0; ljac exc1] None = Some l -> forall x, In x l -> rows x = 1%nat) /\
  showf (off_diag_jhj op_mul [exc0; exc1] None) = Some ([], [12]%Z).
Proof.
  split; [apply awfb_ok; reflexivity|]. split; [apply awfb_ok; reflexivity|]. split; [|split; [|vmr]].
  - intros x [<-|[<-|[]]] p q r _ _ _; cbn; destruct (_ && _); reflexivity.
  - intros l H x Hx. unfold get_reduced_jacobians in H. cbn -[extend_jacobians] in H. injection H as <-. destruct Hx as [<-|[<-|[]]]; reflexivity.
Qed.
(* f(x, y) = x[0] * y[1] with x = (u0, u1), y = (u0, u0): f = u0^2, Hessian term 2; folx returns 0. *)
Definition exb1 : lapl Z := de [2]%nat [3; 4]%Z 2 [1; 0; 0; 1]%Z [0; 0]%Z.
Definition exb2 : lapl Z := de [2]%nat [3; 3]%Z 2 [1; 1; 0; 0]%Z [0; 0]%Z.
Theorem C19_bilinear_refuted : exists (f : op Z) (args : list (lapl Z)) (r : nd Z),
  (forall a, In a args -> awf 2 a) /\ truthful f LINEAR_IN_ONE (xs_of args) /\
  vmapped_jhj f false LINEAR_IN_ONE None [] [[0%nat]; [0%nat]] [] mgtt 0 args = Some r /\
  hspec 2 (merged f mgtt 2 []) args [] = 2%Z /\ at_ r [] = 0%Z.
Proof.
  exists op_x0y1, [exb1; exb2], (gotn (vmapped_jhj op_x0y1 false LINEAR_IN_ONE None [] [[0%nat]; [0%nat]] [] mgtt 0 [exb1; exb2])).
  split; [apply forall_awf; reflexivity|]. split; [|split; [apply gotn_ok; vmr|split; vmr]].
  split; [|split]; intros H; try (vm_compute in H; discriminate H).
  - intros p q r _ _ _. cbn. destruct q as [|[|?] [|? ?]], r as [|[|?] [|? ?]]; reflexivity.
  - intros a Ha p q r _ _ _. cbn in Ha. destruct a as [|[|a]]; [| |lia]; cbn; destruct q as [|[|[|?]] [|? ?]], r as [|[|[|?]] [|? ?]]; reflexivity.
Qed.
Print Assumptions C19_bilinear_refuted.

(* ---- C20: division, over the real numbers ---- *)
#[export] Instance CRing_R : CRing R := {| r0 := 0%R; r1 := 1%R; radd := Rplus; rmul := Rmult; rsub := Rminus; ropp := Ropp; rth := RTheory |}.
Lemma inv_R (y : R) : y <> 0%R -> invertible Rinv y.
Proof. intros Hy. split; [|split]; apply Rinv_r; auto; repeat apply Rmult_integral_contrapositive_currified; auto. Qed.
(* x / y with both arguments depending on the inputs *)
Theorem C20_division_exact : forall (n : nat) (a b : lapl R) (complex_to_real : bool) (threshold : Z) (r : nd R),
  (0 < n)%nat -> awf n a -> awf n b -> bshapes [sh (lx a); sh (lx b)] <> None -> all_or_none_sparse [a; b] ->
  (forall q, inb q (sh (lx b)) -> at_ (lx b) q <> 0%R) ->
  jhj_trace (op_div Rinv) complex_to_real LINEAR_IN_FIRST (Some (div_jhj Rinv)) [] [[]; []] [] mgtt threshold [a; b] = Some r ->
  let out := sh (o_fwd (op_div Rinv) [lx a; lx b]) in
  bto (sh r) out /\ forall p, inb p out ->
    let x := at_ (lx a) (bproj (sh (lx a)) p) in let y := at_ (lx b) (bproj (sh (lx b)) p) in
    at_ r (bproj (sh r) p) =
     (- (2 / (y * y)) * sumn n (fun i => jent (ljac a) i (bproj (sh (lx a)) p) * jent (ljac b) i (bproj (sh (lx b)) p)) +
      2 * x / (y * y * y) * sumn n (fun i => jent (ljac b) i (bproj (sh (lx b)) p) * jent (ljac b) i (bproj (sh (lx b)) p)))%R.
Proof.
  intros n a b c2r th r Hn Wa Wb HB HA Hy H out.
  assert (HS : setup n (op_div Rinv) mgtt [a; b] [[]; []] [] []).
  { refine (@setup_ew R _ n _ _ _ [true; true] [a; b] [] Hn _ _ _ _ _); try reflexivity; try discriminate; [|exact HB]. intros x [<-|[<-|[]]]; auto. }
  assert (HJ : jhj_ok n (merged (op_div Rinv) mgtt 2 []) [a; b] r).
  { refine (@vmapped_custom R _ n (op_div Rinv) c2r LINEAR_IN_FIRST (div_jhj Rinv) [] [[]; []] [] mgtt th [a; b] r _ _ HS eq_refl _ (@div_two_exact R _ Rinv n mgtt Hn (su_mg HS) eq_refl) _ _).
  - destruct HA as [HA|HA]; [right|left; exact HA]. intros c Hc E. unfold all_weak in HA. rewrite forallb_forall in HA. rewrite (HA c Hc) in E. discriminate.
  - intros brd bi args' es Hbrd Hb Hl (L1 & L2 & Hm) (L3 & _ & _). split; [exact Hl|]. split; [destruct es; [reflexivity|discriminate]|].
    apply inv_R. specialize (Hm 1%nat ltac:(cbn; lia)). cbn [nth xs_of map] in Hm.
    destruct args' as [|a' [|b' [|? ?]]]; try discriminate. cbn [nth xs_of map] in Hm |- *. destruct Hm as [E1 E2].
    pose proof (@leaves_ok _ _ [a; b] [[]; []] [] [] (su_ax HS) (su_eax HS)) as _.
    assert (Es : sh (bslice [] bi (lx b)) = []) by (unfold bslice; cbn [sh]; rewrite sax_nil; reflexivity).
    rewrite Es in E2. rewrite <- (E2 [] (Forall2_nil _)). unfold bslice. cbn [at_]. rewrite sax_nil.
    assert (Hbto : bto (sh (lx b)) brd).
    { pose proof (@brd_bto _ _ (sh (lx b), []) Hbrd) as Hx. cbn [fst snd] in Hx. rewrite reduced_nil in Hx. apply Hx. unfold leaves_of. cbn. auto. }
    pose proof (bproj_inb Hbto Hb) as Hin. unfold ndim. rewrite keep_pos_nil, permute_id. rewrite weave_nil by (apply inb_length; exact Hin). apply Hy. exact Hin.
  - exact H. }
  destruct HJ as [H1 H2]. split; [exact H1|]. intros p Hp x y. rewrite (H2 p Hp).
    assert (Hyb : y <> 0%R).
    { apply Hy. cbn [op_div ew_op o_fwd sh] in Hp. unfold out, ew_shape in Hp. cbn [op_div ew_op o_fwd sh] in Hp. unfold ew_shape in Hp. cbn [map] in Hp. destruct (bshapes [sh (lx a); sh (lx b)]) as [s|] eqn:E; [|congruence]. destruct (bshapes_spec _ E) as [Hs _].
      apply (@bproj_inb _ s); auto. apply Hs. cbn; auto. }
    change (length [a; b]) with 2%nat. rewrite (@hspec_div R _ Rinv n a b p HB Hp). fold x y. cbn [radd rmul ropp r1 r0 CRing_R].
    f_equal; f_equal; field; auto.
Qed.
Print Assumptions C20_division_exact.
(* c / y with a constant numerator *)
Theorem C20_reciprocal_exact : forall (n : nat) (c : nd R) (b : lapl R) (complex_to_real : bool) (threshold : Z) (r : nd R),
  (0 < n)%nat -> awf n b -> bshapes [sh c; sh (lx b)] <> None -> (forall q, inb q (sh (lx b)) -> at_ (lx b) q <> 0%R) ->
  jhj_trace (op_div Rinv) complex_to_real LINEAR_IN_FIRST (Some (div_jhj Rinv)) [c] [[]] [[]] mgft threshold [b] = Some r ->
  let out := sh (o_fwd (op_div Rinv) [c; lx b]) in
  bto (sh r) out /\ forall p, inb p out ->
    let x := at_ c (bproj (sh c) p) in let y := at_ (lx b) (bproj (sh (lx b)) p) in
    at_ r (bproj (sh r) p) = (2 * x / (y * y * y) * sumn n (fun i => jent (ljac b) i (bproj (sh (lx b)) p) * jent (ljac b) i (bproj (sh (lx b)) p)))%R.
Proof.
  intros n c b c2r th r Hn Wb HB Hy H out.
  assert (HS : setup n (op_div Rinv) mgft [b] [[]] [c] [[]]).
  { refine (@setup_ew R _ n _ _ _ [false; true] [b] [c] Hn _ _ _ _ _); try reflexivity; try discriminate; [|exact HB]. intros x [<-|[]]; auto. }
  assert (HJ : jhj_ok n (merged (op_div Rinv) mgft 1 [c]) [b] r).
  { refine (@vmapped_custom R _ n (op_div Rinv) c2r LINEAR_IN_FIRST (div_jhj Rinv) [c] [[]] [[]] mgft th [b] r _ _ HS eq_refl _ (@div_den_exact R _ Rinv n mgft Hn (su_mg HS) eq_refl) _ _).
  - destruct (any_weak [b]) eqn:E; [right|auto]. intros x [<-|[]] Ew. unfold any_weak in E. cbn in E. rewrite Ew in E. discriminate.
  - intros brd bi args' es Hbrd Hb Hl (L1 & L2 & Hm) (L3 & _ & _). split; [exact Hl|]. split; [exact L3|].
    apply inv_R. specialize (Hm 0%nat ltac:(cbn; lia)). cbn [nth xs_of map] in Hm.
    destruct args' as [|b' [|? ?]]; try discriminate. cbn [nth xs_of map] in Hm |- *. destruct Hm as [E1 E2].
    assert (Es : sh (bslice [] bi (lx b)) = []) by (unfold bslice; cbn [sh]; rewrite sax_nil; reflexivity).
    rewrite Es in E2. rewrite <- (E2 [] (Forall2_nil _)). unfold bslice. cbn [at_]. rewrite sax_nil.
    assert (Hbto : bto (sh (lx b)) brd).
    { pose proof (@brd_bto _ _ (sh (lx b), []) Hbrd) as Hx. cbn [fst snd] in Hx. rewrite reduced_nil in Hx. apply Hx. unfold leaves_of. cbn. auto. }
    pose proof (bproj_inb Hbto Hb) as Hin. unfold ndim. rewrite keep_pos_nil, permute_id. rewrite weave_nil by (apply inb_length; exact Hin). apply Hy. exact Hin.
  - exact H. }
  destruct HJ as [H1 H2]. split; [exact H1|]. intros p Hp x y. rewrite (H2 p Hp).
    assert (Hyb : y <> 0%R).
    { apply Hy. unfold out in Hp. cbn [op_div ew_op o_fwd sh] in Hp. unfold ew_shape in Hp. cbn [map] in Hp. destruct (bshapes [sh c; sh (lx b)]) as [s|] eqn:E; [|congruence]. destruct (bshapes_spec _ E) as [Hs _].
      apply (@bproj_inb _ s); auto. apply Hs. cbn; auto. }
    change (length [b]) with 1%nat. rewrite (@hspec_div_den R _ Rinv n c b p HB Hp). fold x y. cbn [radd rmul ropp r1 r0 CRing_R].
    f_equal; field; auto.
Qed.
Print Assumptions C20_reciprocal_exact.
(* a derivative-carrying numerator over a constant: no second-order term, and none is due *)
Theorem C20_numerator_exact : forall (n : nat) (a : lapl R) (c : nd R) (complex_to_real : bool) (threshold : Z),
  let mg := merge_of [true; false] in
  jhj_trace (op_div Rinv) complex_to_real LINEAR_IN_FIRST (Some (div_jhj Rinv)) [c] [[]] [[]] mg threshold [a] = Some nd0 /\
  forall p, inb p (sh (o_fwd (op_div Rinv) [lx a; c])) -> hspec n (merged (op_div Rinv) mg 1 [c]) [a] p = 0%R.
Proof.
  intros n a c c2r th mg. assert (Hm : merge_ok mg 1 1) by apply (merge_of_ok [true; false]).
  assert (Ht : truthful (op_div Rinv) LINEAR_IN_FIRST (mg _ (xs_of [a]) [c])).
  { split; [intros H; vm_compute in H; discriminate H|]. split; [|intros H; vm_compute in H; discriminate H]. intros _ p q r _ _ _. cbn. destruct (_ && _); reflexivity. }
  destruct (@shortcut_sound R _ n (op_div Rinv) c2r LINEAR_IN_FIRST (Some (div_jhj Rinv)) [c] [[]] [[]] mg th [a] Hm Ht eq_refl) as [G1 G2].
  split; [exact G1|]. intros p Hp. exact (G2 p Hp).
Qed.
Print Assumptions C20_numerator_exact.
Definition rarr (s : shape) (l : list R) : nd R := Nd s (fun i => nth (ravel_ix s i) l 0%R).
Definition exRa : lapl R := Lapl (rarr [2]%nat [3; 4]%R) (Jac (rarr [1; 2]%nat [1; 1]%R) (Some (arr [1; 2]%nat [0; 1]%Z))) (rarr [2]%nat [0; 0]%R).
Definition exRb : lapl R := Lapl (rarr [2]%nat [5; 6]%R) (Jac (rarr [1; 2]%nat [1; 1]%R) (Some (arr [1; 2]%nat [1; 1]%Z))) (rarr [2]%nat [0; 0]%R).
Lemma awf_ex_sparse (x d l : list R) (i : list Z) : length i = 2%nat -> forallb (fun z => ((0 <=? z) && (z <? 2))%Z) i = true ->
  awf 2 (Lapl (rarr [2]%nat x) (Jac (rarr [1; 2]%nat d) (Some (arr [1; 2]%nat i))) (rarr [2]%nat l)).
Proof.
  intros Hl Hi. split; [|reflexivity]. exists 1%nat. split; [reflexivity|]. cbn [ljac jidx lx sh rarr]. split; [reflexivity|]. intros r p Hr Hp.
  inversion Hp as [|k m p' s' Hk Hp' E1 E2]; subst. inversion Hp'; subst. destruct i as [|u [|v [|? ?]]]; try discriminate Hl. cbn in Hi. rewrite !andb_true_iff, !Z.leb_le, !Z.ltb_lt in Hi.
  assert (r = 0%nat) by lia. subst r. destruct k as [|[|k]]; [| |lia]; cbn; split; lia.
Qed.
Example C20_hypotheses_met : awf 2 exRa /\ awf 2 exRb /\ bshapes [sh (lx exRa); sh (lx exRb)] <> None /\ all_or_none_sparse [exRa; exRb] /\
  (forall q, inb q (sh (lx exRb)) -> at_ (lx exRb) q <> 0%R) /\
  is_some (jhj_trace (op_div Rinv) false LINEAR_IN_FIRST (Some (div_jhj Rinv)) [] [[]; []] [] mgtt 2 [exRa; exRb]) = true /\
  is_some (jhj_trace (op_div Rinv) false LINEAR_IN_FIRST (Some (div_jhj Rinv)) [lx exRa] [[]] [[]] mgft 2 [exRb]) = true.
Proof.
  split; [apply awf_ex_sparse; reflexivity|]. split; [apply awf_ex_sparse; reflexivity|]. split; [discriminate|]. split; [left; reflexivity|]. split; [|split; vmr].
  intros q Hq. inversion Hq as [|k m p' s' Hk Hp' E1 E2]; subst. inversion Hp'; subst. destruct k as [|[|k]]; [| |lia]; cbn; apply not_0_IZR; lia.
Qed.

(* ---- C21: |z| ---- *)
(* On one element: exact for dense Jacobians and for sparse ones that store every input at most once. *)
Theorem C21_abs_partial : forall (A : Type) (RA : CRing A) (n : nat) (iy : A) (z : A * A) (J : jac (A * A)),
  @jwf _ CRing_C n [] J -> (weak J = false \/ @jdistinct _ J) -> cabs_jhj iy z J = cabs_spec n iy z J.
Proof. exact @cabs_exact. Qed.
Print Assumptions C21_abs_partial.
Definition cx (l : list Z) : nd (Z * Z) := Nd [length l]%nat (fun i => (nth (hd 0%nat i) l 0%Z, 0%Z)).
Definition cx2 (k : nat) (l : list Z) : nd (Z * Z) := Nd [k; 3]%nat (fun i => (nth (ravel_ix [k; 3]%nat i) l 0%Z, nth (ravel_ix [k; 3]%nat i) l 0%Z)).
(* x_j = 1 + (1+i) u_j for three real inputs at u = 0, z = x + (x[0] - 1): folx's own addition stores input 0 twice at element 0.
   z = 1 there, so 1/|z| = 1. *)
Definition cxa : lapl (Z * Z) := Lapl (cx [1; 1; 1]%Z) (Jac (cx2 1 [1; 1; 1]%Z) (Some (arr [1; 3]%nat [0; 1; 2]%Z))) (cx [0; 0; 0]%Z).
Definition cxb : lapl (Z * Z) := Lapl (cx [0; 0; 0]%Z) (Jac (cx2 1 [1; 1; 1]%Z) (Some (arr [1; 3]%nat [0; 0; 0]%Z))) (cx [0; 0; 0]%Z).
Definition cxs : lapl (Z * Z) := Lapl (cx [1; 1; 1]%Z) (Jac (cx2 2 [1; 1; 1; 1; 1; 1]%Z) (Some (arr [2; 3]%nat [0; 0; 0; 0; 1; 2]%Z))) (cx [0; 0; 0]%Z).
Definition ev0 (z : Z * Z) : Z := 1%Z.
Definition op_cabs : op (Z * Z) := @op_unary (Z * Z) CRing_C (fun z => z) (fun z => z) (fun z => z).
Theorem C21_abs_refuted : exists (a b s : lapl (Z * Z)) (r : nd (Z * Z)),
  @awf _ CRing_C 3 a /\ @awf _ CRing_C 3 b /\
  (* s is what folx's elementwise addition of a and b returns *)
  (exists y, @sparse_diag_jvp _ CRing_C (@op_add _ CRing_C) [a; b] LINEAR (Some []) = Some y /\
     option_map flat (jidx (snd (fst y))) = option_map flat (jidx (ljac s)) /\ flat (jdata (snd (fst y))) = flat (jdata (ljac s))) /\
  @vmapped_jhj _ CRing_C op_cabs false 0%Z (Some (cabs_rule ev0)) [] [[]] [] (merge_of [true]) 3 [s] = Some r /\
  at_ (lx s) [0%nat] = (1, 0)%Z /\
  (* the rule returns half of the true second-order term *)
  @jent _ CRing_C (ljac s) 0 [0%nat] = (2, 2)%Z /\ (forall i, (0 < i < 3)%nat -> @jent _ CRing_C (ljac s) i [0%nat] = (0, 0)%Z) /\
  sumn 3 (fun i => abs_dd 1%Z (at_ (lx s) [0%nat]) (@jent _ CRing_C (ljac s) i [0%nat])) = 4%Z /\ at_ r [0%nat] = (2, 0)%Z.
Proof.
  assert (W : forall x l d i, length d = 3%nat -> length i = 3%nat -> forallb (fun z => ((0 <=? z) && (z <? 3))%Z) i = true ->
    @awf _ CRing_C 3 (Lapl (Nd [3]%nat x) (Jac (cx2 1 d) (Some (arr [1; 3]%nat i))) (Nd [3]%nat l))).
  { intros x l d i Hd Hl Hi. split; [|reflexivity]. exists 1%nat. split; [reflexivity|]. cbn [ljac jidx lx sh]. split; [reflexivity|]. intros r p Hr Hp.
    inversion Hp as [|k m p' s' Hk Hp' E1 E2]; subst. inversion Hp'; subst. destruct i as [|u [|v [|w [|? ?]]]]; try discriminate Hl. cbn in Hi. rewrite !andb_true_iff, !Z.leb_le, !Z.ltb_lt in Hi.
    assert (r = 0%nat) by lia. subst r. destruct k as [|[|[|k]]]; [| | |lia]; cbn; split; lia. }
  exists cxa, cxb, cxs. eexists (match @vmapped_jhj _ CRing_C op_cabs false 0%Z (Some (cabs_rule ev0)) [] [[]] [] (merge_of [true]) 3 [cxs] with Some r => r | None => cx [] end).
  split; [apply (@W (fun i => (nth (hd 0%nat i) [1; 1; 1]%Z 0%Z, 0%Z)) (fun i => (nth (hd 0%nat i) [0; 0; 0]%Z 0%Z, 0%Z))); reflexivity|].
  split; [apply (@W (fun i => (nth (hd 0%nat i) [0; 0; 0]%Z 0%Z, 0%Z)) (fun i => (nth (hd 0%nat i) [0; 0; 0]%Z 0%Z, 0%Z))); reflexivity|].
  split.
  { exists (match @sparse_diag_jvp _ CRing_C (@op_add _ CRing_C) [cxa; cxb] LINEAR (Some []) with Some y => y | None => (cx [], Jac (cx []) None, cx []) end).
    split; [|split; vmr]. assert (E : is_some (@sparse_diag_jvp _ CRing_C (@op_add _ CRing_C) [cxa; cxb] LINEAR (Some [])) = true) by vmr.
    destruct (@sparse_diag_jvp _ CRing_C (@op_add _ CRing_C) [cxa; cxb] LINEAR (Some [])); [reflexivity|discriminate E]. }
  split.
  { assert (E : is_some (@vmapped_jhj _ CRing_C op_cabs false 0%Z (Some (cabs_rule ev0)) [] [[]] [] (merge_of [true]) 3 [cxs]) = true) by vmr.
    destruct (@vmapped_jhj _ CRing_C op_cabs false 0%Z (Some (cabs_rule ev0)) [] [[]] [] (merge_of [true]) 3 [cxs]); [reflexivity|discriminate E]. }
  split; [vmr|]. split; [vmr|]. split; [|split; vmr]. intros i Hi. destruct i as [|[|[|i]]]; try lia; vmr.
Qed.
Print Assumptions C21_abs_refuted.
