(* CalcPrims.v : the registry of wrapped_functions.py:297-442 over the reals, and the exactness of each of its rules. *)
From Coq Require Import Reals Lra.
From Coquelicot Require Import Coquelicot.
From Verif Require Export CalcFun DotCalc SlogCalc CplxAbs CplxSlogPrim.
Set Implicit Arguments.
Local Open Scope R_scope.

(* ---- elementwise functions flagged LINEAR (wrapped_functions.py:291-293, 303-311, 384-389) ---- *)
Inductive lin_ew := LNeg | LAbs | LAdd | LSub | LMax | LMin.
(* the two operands of an elementwise function *)
Definition v0 (v : list R) := nth 0 v 0. Definition v1 (v : list R) := nth 1 v 0.
(* value of the function (jax.lax.neg, abs, add, sub, max, min) *)
Definition lin_f (l : lin_ew) (v : list R) : R :=
  match l with LNeg => - v0 v | LAbs => Rabs (v0 v) | LAdd => v0 v + v1 v | LSub => v0 v - v1 v | LMax => Rmax (v0 v) (v1 v) | LMin => Rmin (v0 v) (v1 v) end.
(* its first partial derivatives *)
Definition lin_1 (l : lin_ew) (v : list R) (a : nat) : R :=
  match l, a with
  | LNeg, O => -1 | LAbs, O => if Rlt_dec 0 (v0 v) then 1 else -1
  | LAdd, O => 1 | LAdd, S O => 1 | LSub, O => 1 | LSub, S O => -1
  | LMax, O => if Rlt_dec (v1 v) (v0 v) then 1 else 0 | LMax, S O => if Rlt_dec (v1 v) (v0 v) then 0 else 1
  | LMin, O => if Rlt_dec (v0 v) (v1 v) then 1 else 0 | LMin, S O => if Rlt_dec (v0 v) (v1 v) then 0 else 1
  | _, _ => 0
  end.
(* its second partial derivatives *)
Definition lin_2 (l : lin_ew) (v : list R) (a b : nat) : R := 0.
(* its number of operands *)
Definition lin_ar (l : lin_ew) : nat := match l with LNeg | LAbs => 1%nat | _ => 2%nat end.
(* where it is twice differentiable *)
Definition lin_dom (l : lin_ew) (v : list R) : Prop := match l with LAbs => v0 v <> 0 | LMax | LMin => v0 v <> v1 v | _ => True end.
(* ---- binary functions without flags: pow, and the jitted function logaddexp ---- *)
Inductive binary := BPow | BLogaddexp.
(* value (jax.lax.pow, jnp.logaddexp) *)
Definition bin_f (b : binary) (v : list R) : R := match b with BPow => exp (v1 v * ln (v0 v)) | BLogaddexp => ln (exp (v0 v) + exp (v1 v)) end.
(* first partial derivatives *)
Definition bin_1 (b : binary) (v : list R) (a : nat) : R :=
  match b, a with
  | BPow, O => v1 v * exp (v1 v * ln (v0 v)) / v0 v | BPow, S O => ln (v0 v) * exp (v1 v * ln (v0 v))
  | BLogaddexp, O => exp (v0 v) / (exp (v0 v) + exp (v1 v)) | BLogaddexp, S O => exp (v1 v) / (exp (v0 v) + exp (v1 v))
  | _, _ => 0
  end.
(* second partial derivatives *)
Definition bin_2 (b : binary) (v : list R) (a c : nat) : R :=
  match b, a, c with
  | BPow, O, O => v1 v * (v1 v - 1) * exp (v1 v * ln (v0 v)) / (v0 v * v0 v)
  | BPow, O, S O | BPow, S O, O => (1 + v1 v * ln (v0 v)) * exp (v1 v * ln (v0 v)) / v0 v
  | BPow, S O, S O => ln (v0 v) * ln (v0 v) * exp (v1 v * ln (v0 v))
  | BLogaddexp, O, O | BLogaddexp, S O, S O => exp (v0 v) * exp (v1 v) / ((exp (v0 v) + exp (v1 v)) * (exp (v0 v) + exp (v1 v)))
  | BLogaddexp, O, S O | BLogaddexp, S O, O => - (exp (v0 v) * exp (v1 v) / ((exp (v0 v) + exp (v1 v)) * (exp (v0 v) + exp (v1 v))))
  | _, _, _ => 0
  end.
(* where they hold *)
Definition bin_dom (b : binary) (v : list R) : Prop := match b with BPow => 0 < v0 v | BLogaddexp => True end.

Lemma jet2_near phi v d h : jet2 phi v d h -> locally 0 (fun t => ex_derive phi t).
Proof. intros [_ (p & H & _)]. revert H. apply filter_imp. intros t Ht. exists (p t). exact Ht. Qed.
Lemma lin_smooth l vs : length vs = lin_ar l -> lin_dom l vs -> smooth_fun (lin_f l) (lin_1 l) (lin_2 l) vs.
Proof.
  intros HL HD. unfold smooth_fun. cbv zeta. intros c D H HJ. destruct l; cbn [lin_ar] in HL; destruct vs as [|x [|y [|? ?]]]; try discriminate; unfold lin_dom, v0, v1 in HD; cbn [nth length] in *;
    pose proof (HJ 0%nat ltac:(lia)) as J0; try pose proof (HJ 1%nat ltac:(lia)) as J1; cbn [nth] in J0, J1 || cbn [nth] in J0; unfold sumn, lin_f, lin_1, lin_2, v0, v1; cbn [seq map sumL nth]; rings.
  - eapply jet2_eq; [exact (jet2_opp J0)|..]; ring.
  - destruct (Rlt_dec 0 x) as [Hx|Hx].
    + eapply jet2_eq; [|symmetry; apply Rabs_pos_eq; lra|reflexivity|reflexivity]. apply jet2_ext with (phi := c 0%nat).
      * generalize (jet2_pos J0 Hx). apply filter_imp. intros t Ht. symmetry. apply Rabs_pos_eq. lra.
      * eapply jet2_eq; [exact J0|..]; ring.
    + assert (Hn : 0 < - x) by lra. eapply jet2_eq; [|symmetry; apply Rabs_left1; lra|reflexivity|reflexivity]. apply jet2_ext with (phi := fun t => - c 0%nat t).
      * generalize (jet2_pos (jet2_opp J0) Hn). apply filter_imp. intros t Ht. symmetry. apply Rabs_left1. lra.
      * eapply jet2_eq; [exact (jet2_opp J0)|..]; ring.
  - eapply jet2_eq; [exact (jet2_plus J0 J1)|..]; ring.
  - eapply jet2_eq; [exact (jet2_minus J0 J1)|..]; ring.
  - destruct (Rlt_dec y x) as [Hx|Hx].
    + rewrite (Rmax_left x y) by lra. apply jet2_ext with (phi := c 0%nat).
      * assert (Hp : 0 < x - y) by lra. generalize (jet2_pos (jet2_minus J0 J1) Hp). apply filter_imp. intros t Ht. symmetry. apply Rmax_left. lra.
      * eapply jet2_eq; [exact J0|..]; ring.
    + rewrite (Rmax_right x y) by lra. apply jet2_ext with (phi := c 1%nat).
      * assert (Hp : 0 < y - x) by lra. generalize (jet2_pos (jet2_minus J1 J0) Hp). apply filter_imp. intros t Ht. symmetry. apply Rmax_right. lra.
      * eapply jet2_eq; [exact J1|..]; ring.
  - destruct (Rlt_dec x y) as [Hx|Hx].
    + rewrite (Rmin_left x y) by lra. apply jet2_ext with (phi := c 0%nat).
      * assert (Hp : 0 < y - x) by lra. generalize (jet2_pos (jet2_minus J1 J0) Hp). apply filter_imp. intros t Ht. symmetry. apply Rmin_left. lra.
      * eapply jet2_eq; [exact J0|..]; ring.
    + rewrite (Rmin_right x y) by lra. apply jet2_ext with (phi := c 1%nat).
      * assert (Hp : 0 < x - y) by lra. generalize (jet2_pos (jet2_minus J0 J1) Hp). apply filter_imp. intros t Ht. symmetry. apply Rmin_right. lra.
      * eapply jet2_eq; [exact J1|..]; ring.
Qed.
Lemma un_smooth F F1 F2 x : twice F F1 x (F2 x) -> smooth_fun (fun v => F (nth 0 v 0)) (fun v a => match a with O => F1 (nth 0 v 0) | _ => 0 end) (fun v a b => match a, b with O, O => F2 (nth 0 v 0) | _, _ => 0 end) [x].
Proof.
  intros HT. unfold smooth_fun. cbv zeta. intros c D H HJ. pose proof (HJ 0%nat ltac:(cbn; lia)) as J0. cbn [nth length] in *. unfold sumn. cbn [seq map sumL nth]. rings. eapply jet2_eq; [exact (jet2_comp J0 HT)|..]; ring.
Qed.
Lemma mul_smooth vs : length vs = 2%nat -> smooth_fun (fun v => nth 0 v 0 * nth 1 v 0) (fun v a => match a with O => nth 1 v 0 | S O => nth 0 v 0 | _ => 0 end)
  (fun _ a b => match a, b with O, S O => 1 | S O, O => 1 | _, _ => 0 end) vs.
Proof.
  intros HL. destruct vs as [|x [|y [|? ?]]]; try discriminate. unfold smooth_fun. cbv zeta. intros c D H HJ. pose proof (HJ 0%nat ltac:(cbn; lia)) as J0. pose proof (HJ 1%nat ltac:(cbn; lia)) as J1. cbn [nth length] in *. unfold sumn. cbn [seq map sumL nth]. rings.
  eapply jet2_eq; [exact (jet2_mult J0 J1)|..]; ring.
Qed.
Lemma div_smooth vs : length vs = 2%nat -> v1 vs <> 0 -> smooth_fun (fun v => nth 0 v 0 * / nth 1 v 0)
  (fun v a => match a with O => / nth 1 v 0 | S O => - (nth 0 v 0 * (/ nth 1 v 0 * / nth 1 v 0)) | _ => 0 end)
  (fun v a b => let i := / nth 1 v 0 in match a, b with O, S O => - (i * i) | S O, O => - (i * i) | S O, S O => (1 + 1) * nth 0 v 0 * (i * (i * i)) | _, _ => 0 end) vs.
Proof.
  intros HL Hd. destruct vs as [|x [|y [|? ?]]]; try discriminate. unfold smooth_fun. cbv zeta. intros c D H HJ. pose proof (HJ 0%nat ltac:(cbn; lia)) as J0. pose proof (HJ 1%nat ltac:(cbn; lia)) as J1. unfold v1 in Hd. cbn [nth length] in *. unfold sumn. cbn [seq map sumL nth]. rings.
  eapply jet2_eq; [exact (jet2_mult J0 (jet2_comp J1 (inv_twice Hd)))|..]; cbv beta; ring.
Qed.
Lemma bin_smooth b vs : length vs = 2%nat -> bin_dom b vs -> smooth_fun (bin_f b) (bin_1 b) (bin_2 b) vs.
Proof.
  intros HL Hd. destruct vs as [|x [|y [|? ?]]]; try discriminate. unfold smooth_fun. cbv zeta. intros c D H HJ. pose proof (HJ 0%nat ltac:(cbn; lia)) as J0. pose proof (HJ 1%nat ltac:(cbn; lia)) as J1. unfold bin_dom, v0, v1 in Hd. cbn [nth length] in *.
  unfold sumn, bin_f, bin_1, bin_2, v0, v1. destruct b; cbn [seq map sumL nth]; rings.
  - pose proof (jet2_comp (jet2_mult J1 (jet2_comp J0 (un_twice ULog x Hd))) (un_twice UExp _ I)) as HX. cbn [un_f un_1 un_2] in HX. eapply jet2_eq; [exact HX|reflexivity|..]; field; lra.
  - pose proof (exp_pos x) as Ex. pose proof (exp_pos y) as Ey. assert (Hp : 0 < exp x + exp y) by lra.
    pose proof (jet2_comp (jet2_plus (jet2_comp J0 (un_twice UExp x I)) (jet2_comp J1 (un_twice UExp y I))) (un_twice ULog _ Hp)) as HX. cbn [un_f un_1 un_2] in HX. eapply jet2_eq; [exact HX|reflexivity|..]; field; lra.
Qed.

(* ---- the registry ---- *)
(* a primitive with its params *)
Inductive prim :=
| PLin (l : lin_ew) | PUn (u : unary) | PMul | PDiv | PBin (b : binary)
| PEw (phi : list R -> R) (d : list R -> nat -> R) (h : list R -> nat -> nat -> R)   (* any other elementwise function, e.g. atan2 *)
| PSum (axes : list nat)
| PLinRed (axes : list nat) (f : op R)    (* reduce_max, reduce_min *)
| PRed (axes : list nat) (f : op R)       (* reduce_prod *)
| PIndex (g : iop) (ok filled : bool)     (* broadcast_in_dim, reshape, slice, ..., rev *)
| PLinear (f : op R)                      (* cumsum, scatter_add *)
| PDot (D : dims)                         (* dot_general with its dimension numbers *)
| PConst (f : op R)                       (* sign, comparisons, logical operations *)
| PSlogdet                                (* slogdet of real matrices: two results, sign and log|det| *)
| PCplx (c : cprim)                       (* anything that involves complex arrays, CplxAbs.v *)
| POther (f : op R)                       (* not registered *)
| PScatter (g : iop) (ok filled dims_ok : bool) (ids : list nat)   (* scatter, ScatRule.v *)
| PSlogC.                                 (* slogdet of complex matrices: two results, phase and log|det|, CplxSlogPrim.v *)
Definition op_un (u : unary) : op R := op_unary (un_f u) (un_1 u) (un_2 u).
(* the function a primitive computes, with its derivatives (jax.lax) *)
Definition prim_op (k : prim) : op R :=
  match k with
  | PLin l => ew_op (lin_f l) (lin_1 l) (lin_2 l) | PUn u => op_un u | PMul => op_mul | PDiv => op_div Rinv | PBin b => ew_op (bin_f b) (bin_1 b) (bin_2 b)
  | PEw phi d h => ew_op phi d h | PSum axes => op_sum axes | PLinRed _ f | PRed _ f | PLinear f | PConst f | POther f => f | PIndex g _ _ | PScatter g _ _ _ _ => iop_op g | PDot D => op_dotc D | PSlogdet => op_detlog | PCplx c => cx_op c | PSlogC => op_logabsC
  end.
(* all results of a primitive *)
Definition prim_ops (k : prim) : list (op R) := match k with PSlogdet => [op_detsign; op_detlog] | PSlogC => [op_phase; op_logabsC] | _ => [prim_op k] end.
(* a rule with a single result returns a one-element list of leaves *)
Definition one (r : option (arg R)) : option (list (arg R)) := option_map (fun v => [v]) r.
(* wrapped_functions.py:297-442, 477-498: unary functions with in_axes=() and no flags *)
Definition un_rule (u : unary) : rule R := ew_rule (fun v => un_f u (nth 0 v 0)) (fun v a => match a with O => un_1 u (nth 0 v 0) | _ => 0 end) (fun v a b => match a, b with O, O => un_2 u (nth 0 v 0) | _, _ => 0 end) 0%Z None.
(* wrapped_functions.py:297-442 *)
Definition prim_reg (c2r : bool) (k : prim) : option (@lrule R) :=
  match k with
  | PLin l => Some (fun th xs => one (wrap_fl (ew_rule (lin_f l) (lin_1 l) (lin_2 l) LINEAR None) c2r th xs))
  | PUn u => Some (fun th xs => one (wrap_fl (un_rule u) c2r th xs))
  | PMul => Some (fun th xs => one (wrap_fl mul_rule c2r th xs))
  | PDiv => Some (fun th xs => one (wrap_fl (div_rule Rinv) c2r th xs))
  | PBin b => Some (fun th xs => one (wrap_fl (ew_rule (bin_f b) (bin_1 b) (bin_2 b) 0%Z None) c2r th xs))
  | PEw phi d h => Some (fun th xs => one (wrap_fl (ew_rule phi d h 0%Z None) c2r th xs))
  | PSum axes => Some (fun th xs => one (wrap_fl (sum_rule (map Z.of_nat axes) axes) c2r th xs))
  | PLinRed axes f => Some (fun th xs => one (wrap_fl (red_rule f (map Z.of_nat axes) 15%Z) c2r th xs))
  | PRed axes f => Some (fun th xs => one (wrap_fl (red_rule f (map Z.of_nat axes) REDUCTION) c2r th xs))
  | PIndex g ok filled => Some (fun th xs => one (wrap_fl (index_rule g ok filled) c2r th xs))
  | PLinear f => Some (fun th xs => one (wrap_fl (fn_rule (Fn f None None) LINEAR None) c2r th xs))
  | PDot D => Some (fun th xs => one (dot_prim c2r th D xs))
  | PConst f => Some (fun th xs => one (without_fl (o_fwd f) xs))
  | PSlogdet => Some (fun th xs => match xs with [v] => option_map (fun r => [fst r; snd r]) (slogdet_wrapper sign_det log_absdet mat_inv c2r th v) | _ => None end)
  | PCplx c => Some (fun th xs => one (cx_run c c2r th xs))
  | POther f => None
  | PScatter g ok filled dims_ok ids => Some (fun th xs => one (wrap_scatter g ok filled dims_ok ids c2r th xs))
  | PSlogC => Some (fun th xs => slogC_run c2r th xs)
  end.
(* the string keys: wrapped_functions.py:436-441 *)
Definition op_sign : op R := Op (fun xs => ndmap sign (nth 0 xs nd0)) (fun _ _ _ _ => 0) (fun _ _ _ _ _ _ => 0).
(* wrapped_functions.py:436-441: the function registered under the k-th name (jax.nn.sigmoid, softplus, silu, logaddexp, sign, slogdet; slogdet of complex matrices
   is numbered separately) *)
Definition name_prim (k : nat) : option prim := match k with 0 => Some (PUn ULogistic) | 1 => Some (PUn USoftplus) | 2 => Some (PUn USilu) | 3 => Some (PBin BLogaddexp) | 4 => Some (PConst op_sign) | 5 => Some PSlogdet | 6 => Some PSlogC | _ => None end%nat.
(* wrapped_functions.py:436-441: the rule registered under the k-th name *)
Definition name_reg (c2r : bool) (k : nat) : option (@lrule R) := match name_prim k with Some p => prim_reg c2r p | None => None end.

(* ---- when a primitive may be applied (shapes), and where it is twice differentiable ---- *)
Definition arity_ok (m : nat) (xs : list (nd R)) : Prop := length xs = m /\ bshapes (map (@sh R) xs) <> None.
(* the axes of a reduction exist *)
Definition axes_ok (axes : list nat) (xs : list (nd R)) : Prop := exists x, xs = [x] /\ axes <> [] /\ NoDup axes /\ forall d, In d axes -> (d < ndim x)%nat.
(* the shapes fit the primitive *)
Definition applies (k : prim) (xs : list (nd R)) : Prop :=
  match k with
  | PLin l => arity_ok (lin_ar l) xs | PUn _ => arity_ok 1 xs | PMul | PDiv | PBin _ => arity_ok 2 xs | PEw _ _ _ => bshapes (map (@sh R) xs) <> None
  | PSum axes => axes_ok axes xs
  | PLinRed axes f => axes_ok axes xs /\ fwd_ext f xs | PRed axes f => axes_ok axes xs /\ fwd_ext f xs
  | PIndex g _ _ | PScatter g _ _ _ _ => iop_wf g (map (@sh R) xs)
  | PLinear f | PConst f | POther f => fwd_ext f xs
  | PDot D => dot_fits D xs
  | PSlogdet => square xs
  | PCplx c => cx_applies c xs
  | PSlogC => cx_square xs
  end.
(* the primitive is twice differentiable at the arguments *)
Definition diff_at (k : prim) (xs : list (nd R)) : Prop :=
  match k with
  | PLin l => ew_dom (lin_dom l) xs | PUn u => ew_dom (fun v => un_dom u (v0 v)) xs
  | PDiv => forall q, inb q (sh (nth 1 xs nd0)) -> at_ (nth 1 xs nd0) q <> 0
  | PBin b => ew_dom (bin_dom b) xs | PEw phi d h => ew_dom (smooth_fun phi d h) xs
  | PLinRed axes f => reduces f (nth 0 xs nd0) axes /\ linear f xs /\ smooth f xs
  | PRed axes f => reduces f (nth 0 xs nd0) axes /\ op_ext f xs /\ smooth f xs
  | PLinear f => linear f xs /\ smooth f xs | POther f => op_ext f xs /\ smooth f xs
  | PConst f => flat_at f xs
  | PSlogdet => nonsingular xs
  | PCplx c => cx_diff c xs
  | PSlogC => cx_nonsingular xs
  | PMul | PSum _ | PIndex _ _ _ | PDot _ | PScatter _ _ _ _ _ => True
  end.
(* which mixtures of sparse and dense Jacobians a rule handles exactly (C13, C16, C17); all arguments dense: always *)
Definition mix_at (th : Z) (n : nat) (k : prim) (args : list (arg R)) : Prop :=
  match k with
  | PDiv | PBin _ => mix2 th n (als args) | PEw _ _ _ => mix1 (als args) /\ mix2 th n (als args)
  | PIndex _ _ _ => mixI (als args) | PLinear _ => mixF (als args) | POther _ => mixF (als args) /\ mix2 th n (als args) | PDot D => mixD D args | PCplx c => cx_mix th n c args
  | PScatter _ _ _ _ _ => mixS (als args) | PSlogC => forall v, In v args -> paired v
  | _ => True
  end.
Lemma mix_dense th n k args : Forall (@dense_arg R) args -> mix_at th n k args.
Proof.
  intros H. assert (E : any_weak (als args) = false).
  { unfold any_weak. destruct (existsb (fun a => weak (ljac a)) (als args)) eqn:E; [|reflexivity]. apply existsb_exists in E. destruct E as (a & Ha & Hw). apply In_als in Ha. rewrite Forall_forall in H. specialize (H _ Ha). cbn in H. congruence. }
  destruct k; cbn; unfold mix1, mix2, mixI, mixF; auto.
  2: exact (@cx_mix_dense th n c args H).
  2: right; exact E.
  2: intros v Hv; apply dense_paired; rewrite Forall_forall in H; apply H; exact Hv.
  destruct args as [|u [|v [|? ?]]]; try exact I. intros HS _. exfalso. inversion H as [|? ? D1 _]; subst. destruct u as [a|x]; [cbn in D1, HS; rewrite D1 in HS|cbn in HS]; discriminate.
Qed.
Lemma Rew_vals_nth (xs : list (nd R)) p a : (a < length xs)%nat -> nth a (ew_vals xs p) 0 = at_ (nth a xs nd0) (bproj (sh (nth a xs nd0)) p).
Proof. exact (@ew_vals_nth R CRing_R xs p a). Qed.
Lemma prim_smooth k xs : applies k xs -> diff_at k xs -> match k with PConst f => flat_at f xs | PSlogdet => flat_at op_detsign xs /\ smooth op_detlog xs | PSlogC => smooth op_phase xs /\ smooth op_logabsC xs | _ => smooth (prim_op k) xs end.
Proof.
  intros HA HD. destruct k; cbn [applies diff_at prim_op] in *.
  - destruct HA as [HL HB]. apply ew_smooth; auto. intros p Hp. apply lin_smooth; [|apply HD; exact Hp]. unfold ew_vals. rewrite map_length. exact HL.
  - destruct HA as [HL HB]. unfold op_un, op_unary. apply ew_smooth; auto. intros p Hp. specialize (HD p Hp). assert (HLv : length (ew_vals xs p) = 1%nat) by (unfold ew_vals; rewrite map_length; exact HL).
    cbv beta in HD. destruct (ew_vals xs p) as [|x [|? ?]]; try discriminate. unfold v0 in HD. cbn [nth] in HD. apply (@un_smooth (un_f u) (un_1 u) (un_2 u) x). apply un_twice. exact HD.
  - destruct HA as [HL HB]. unfold op_mul. apply ew_smooth; auto. intros p Hp. apply mul_smooth. unfold ew_vals. rewrite map_length. exact HL.
  - destruct HA as [HL HB]. unfold op_div. apply ew_smooth; auto. intros p Hp. apply div_smooth; [unfold ew_vals; rewrite map_length; exact HL|]. unfold v1. rewrite Rew_vals_nth by lia. apply HD. apply bproj_inb with (s := ew_shape xs); auto. apply ew_bto; auto. lia.
  - destruct HA as [HL HB]. apply ew_smooth; auto. intros p Hp. apply bin_smooth; [unfold ew_vals; rewrite map_length; exact HL|apply HD; exact Hp].
  - apply ew_smooth; auto.
  - destruct HA as (x & -> & H1 & H2 & H3). apply (affine_smooth (sum_affine x H2 H3)).
  - apply HD.
  - apply HD.
  - apply (affine_smooth (index_affine xs HA)).
  - apply HD.
  - apply dot_smooth. exact HA.
  - exact HD.
  - split; [apply detsign_flat|apply detlog_smooth]; assumption.
  - exact (@cx_smooth c xs HA HD).
  - apply HD.
  - apply (affine_smooth (index_affine xs HA)).
  - split; [apply phase_smooth|apply logabs_smooth]; assumption.
Qed.
Lemma prim_ext1 k xs : applies k xs -> fwd_ext (prim_op k) xs.
Proof.
  intros HA. destruct k; cbn [applies prim_op] in *; try (apply ew_ext; apply HA); try apply HA.
  - destruct HA as (x & -> & H1 & H2 & H3). apply (affine_ext (sum_affine x H2 H3)).
  - apply (affine_ext (index_affine xs HA)).
  - apply dot_ext. exact HA.
  - apply detlog_ext. exact HA.
  - exact (@cx_ext c xs HA).
  - apply (affine_ext (index_affine xs HA)).
  - apply (slogC_ext HA).
Qed.
Lemma prim_ext k xs f : applies k xs -> In f (prim_ops k) -> fwd_ext f xs.
Proof.
  intros HA Hf. pose proof (prim_ext1 k HA) as H1. destruct k; try (destruct Hf as [<-|[]]; exact H1); (destruct Hf as [<-|[<-|[]]]; [|exact H1]); [apply detsign_ext; exact HA|apply (slogC_ext HA)].
Qed.
Lemma inv_R y : y <> 0 -> @invertible R CRing_R Rinv y.
Proof. intros H. unfold invertible. rings. repeat split; field; auto. Qed.
Lemma one_some r outs : one r = Some outs -> exists v, r = Some v /\ outs = [v].
Proof. destruct r as [v|]; cbn; [|discriminate]. intros [= <-]. eauto. Qed.
Lemma als_two u v : als [u; v] = [] -> forallb isplain [u; v] = true.
Proof. destruct u, v; cbn; auto; discriminate. Qed.
Lemma als_plain args : als args = [] -> forallb isplain args = true.
Proof. induction args as [|[a|x] l IH]; cbn; auto. discriminate. Qed.

(* the guard of a primitive equation: its arguments fit, and either nothing is differentiated or the primitive is twice differentiable there *)
Definition prim_guard (th : Z) (n : nat) (k : prim) (fs : list (op R)) (args : list (arg R)) : Prop :=
  let xs := map (@aval R) args in fs = prim_ops k /\ applies k xs /\ (als args <> [] -> diff_at k xs /\ mix_at th n k args).

(* specification: the result is the value with exact derivatives *)
Definition out_ok (n : nat) (f : op R) (args : list (arg R)) (r : arg R) : Prop := exists a, r = AL a /\ arg_ok n f args a /\ jrow1 (ljac a).
Lemma out_good n f args r : smooth f (map (@aval R) args) -> out_ok n f args r -> prim_good n [f] args [r].
Proof. intros HS (a & -> & H1 & H2). constructor; [|constructor]. auto. Qed.
Theorem prim_ok n c2r th k args outs : (0 < n)%nat -> (forall v, In v args -> vok n v) -> als args <> [] -> prim_guard th n k (prim_ops k) args ->
  eval_prim (prim_reg c2r) c2r k (prim_ops k) th args = Some outs -> prim_good n (prim_ops k) args outs.
Proof.
  intros Hn HV Hne (_ & HA & HDM) H. destruct (HDM Hne) as [HD HM]. clear HDM. pose proof (prim_smooth k _ HA HD) as HS. pose proof (als_len args) as HL2.
  unfold eval_prim in H. destruct k; cbn [prim_reg prim_op prim_ops] in *; cbv beta in H; try (match type of H with one _ = _ => idtac end; apply one_some in H; destruct H as (r & Hr & ->)).
  - apply out_good; [exact HS|]. cbn in HA. destruct HA as [HL HB]. rewrite map_length in HL. refine (@ew_linear_sound _ _ _ _ _ n c2r th LINEAR None args r Hn Hne HV HB _ _ (fun _ _ _ => eq_refl) Hr); [apply mix1_two|reflexivity]. destruct l; cbn [lin_ar] in HL; lia.
  - apply out_good; [exact HS|]. cbn in HA. destruct HA as [HL HB]. rewrite map_length in HL. destruct args as [|[a|x] [|? ?]]; try discriminate; [|cbn in Hne; congruence].
    refine (@ew_unary_sound _ _ _ _ _ n c2r th a r Hn _ Hr). apply HV. left. reflexivity.
  - apply out_good; [exact HS|]. cbn in HA. destruct HA as [HL HB]. rewrite map_length in HL. destruct (two_args _ HL) as (u & v & ->). apply (@mul_sound _ _ n c2r th u v r Hn Hne (HV u (or_introl eq_refl)) (HV v (or_intror (or_introl eq_refl))) HB Hr).
  - apply out_good; [exact HS|]. cbn in HA. destruct HA as [HL HB]. rewrite map_length in HL. destruct (two_args _ HL) as (u & v & ->). refine (@div_sound _ _ _ n c2r th u v r Hn Hne (HV u (or_introl eq_refl)) (HV v (or_intror (or_introl eq_refl))) HB _ HM Hr). intros q Hq. apply inv_R. apply HD. exact Hq.
  - apply out_good; [exact HS|]. cbn in HA. destruct HA as [HL HB]. rewrite map_length in HL. refine (@ew_general_sound _ _ _ _ _ n c2r th args r Hn Hne HV HB _ HM Hr). apply mix1_two. lia.
  - apply out_good; [exact HS|]. cbn in HA. destruct HM as [M1 M2]. apply (@ew_general_sound _ _ _ _ _ n c2r th args r Hn Hne HV HA M1 M2 Hr).
  - apply out_good; [exact HS|]. destruct HA as (x & Ex & H1 & H2 & H3). destruct (one_arg _ Ex Hne) as (a & -> & <-).
    pose proof (@sum_sound _ _ n (map Z.of_nat axes) c2r th a r Hn (HV _ (or_introl eq_refl))) as HX. cbv zeta in HX. rewrite !norm_nats in HX. apply HX; [|split; rewrite norm_nats; assumption|exact Hr]. intros E. apply map_eq_nil in E. auto.
  - apply out_good; [exact HS|]. destruct HA as [(x & Ex & H1 & H2 & H3) HF]. destruct (one_arg _ Ex Hne) as (a & -> & <-). destruct HD as (D1 & D2 & D3).
    refine (@linred_sound _ _ n f (map Z.of_nat axes) c2r th a r Hn (HV _ (or_introl eq_refl)) _ _ _ D2 Hr); [intros E; apply map_eq_nil in E; auto|split; rewrite norm_nats; assumption|rewrite norm_nats; exact D1].
  - apply out_good; [exact HS|]. destruct HA as [(x & Ex & H1 & H2 & H3) HF]. destruct (one_arg _ Ex Hne) as (a & -> & <-). destruct HD as (D1 & D2 & D3).
    refine (@red_sound _ _ n f (map Z.of_nat axes) c2r th a r Hn (HV _ (or_introl eq_refl)) _ _ _ D2 Hr); [intros E; apply map_eq_nil in E; auto|split; rewrite norm_nats; assumption|rewrite norm_nats; exact D1].
  - apply out_good; [exact HS|]. apply (@index_sound _ _ n g ok filled c2r th args r Hn Hne HV HA HM Hr).
  - apply out_good; [exact HS|]. destruct HD as [D1 D2]. apply (@linear_fn_sound _ _ n f c2r th args r Hn Hne HV HM D1 Hr).
  - apply out_good; [exact HS|]. apply (@dot_prim_sound R _ n c2r th D args r Hn Hne HV HA HM Hr).
  - unfold without_fl in Hr. injection Hr as <-. constructor; [|constructor]. split; [reflexivity|exact HD].
  - destruct HA as (x & L & m & Ex & Hs). destruct (one_arg _ Ex Hne) as (a & -> & <-). destruct HS as [S1 S2].
    destruct (slogdet_wrapper sign_det log_absdet mat_inv c2r th (AL a)) as [r|] eqn:Er; [|discriminate]. cbn [option_map] in H. injection H as <-.
    destruct (@slogdet_sound R _ sign_det log_absdet mat_inv n c2r th a L m r Hn (HV _ (or_introl eq_refl)) Hs inv_ext1 (fun x Hx => Hx) Er) as (E1 & b & E2 & E3 & E4). rewrite E1, E2.
    constructor; [split; [reflexivity|exact S1]|]. constructor; [|constructor]. split; [exact E3|]. split; [exact E4|exact S2].
  - apply out_good; [exact HS|]. exact (@cx_sound n c c2r th args r Hn HV Hne HA HD HM Hr).
  - unfold missing_rule, default_rule in H. cbn [map sequence] in H. destruct (wrap_fl _ _ _ _) as [r|] eqn:Hr; [|discriminate]. cbn in H. injection H as <-. apply out_good; [exact HS|]. destruct HD as [D1 D2], HM as [M1 M2]. apply (@general_fn_sound _ _ n f c2r th args r Hn Hne HV M1 M2 D1 Hr).
  - apply out_good; [exact HS|]. apply (@scatter_sound _ _ n g ok filled dims_ok ids c2r th args r Hn Hne HV HA HM Hr).
  - destruct HA as (x & L & m & Ex & Hs). destruct (one_arg _ Ex Hne) as (a & -> & <-). destruct HS as [S1 S2]. cbn [mix_at] in HM.
    destruct (@slogC_ok n c2r th a L m Hn (HV _ (or_introl eq_refl)) Hs (HM _ (or_introl eq_refl)) outs H) as (s & b & -> & [A1 A2] & [B1 B2] & _).
    constructor; [split; [exact A1|split; [exact A2|exact S1]]|]. constructor; [|constructor]. split; [exact B1|]. split; [exact B2|exact S2].
Qed.
