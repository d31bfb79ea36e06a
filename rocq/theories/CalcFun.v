(* CalcFun.v : the real functions behind the elementwise primitives of wrapped_functions.py:302-436, with their derivatives.  JAX's own
   implementation of these functions is not in /repo; they are taken to be the mathematical ones. *)
From Coq Require Import Reals Lra.
From Coquelicot Require Import Coquelicot.
From Verif Require Export CalcOps.
Set Implicit Arguments.
Local Open Scope R_scope.

Lemma near_ne (g : R -> R) y c : continuous g y -> g y <> c -> locally y (fun u => g u <> c).
Proof.
  intros Hc Hne. apply (Hc (fun v => v <> c)). apply (open_neq c). exact Hne.
Qed.
Lemma near_pos (g : R -> R) y : continuous g y -> 0 < g y -> locally y (fun u => 0 < g u).
Proof. intros Hc Hp. apply (Hc (fun v => 0 < v)). apply (open_gt 0). exact Hp. Qed.
Lemma twice_intro (P : R -> Prop) F F1 y f2 : locally y P -> (forall u, P u -> is_derive F u (F1 u)) -> is_derive F1 y f2 -> twice F F1 y f2.
Proof. intros HP HF H2. split; [|exact H2]. revert HP. apply filter_imp. exact HF. Qed.

(* the unary elementwise functions registered at wrapped_functions.py:297-442 *)
Inductive unary := USin | UCos | UTan | UExp | UExpm1 | ULog | ULog1p | USqrt | URsqrt | UTanh | ULogistic | UAtan | UAsin | UAcos | UPow (k : nat) | UPowNeg (k : nat) | USoftplus | USilu.
(* jax.nn.sigmoid *)
Definition logistic (x : R) : R := / (1 + exp (- x)).
(* their values *)
Definition un_f (u : unary) (x : R) : R :=
  match u with
  | USin => sin x | UCos => cos x | UTan => sin x / cos x | UExp => exp x | UExpm1 => exp x - 1 | ULog => ln x | ULog1p => ln (1 + x)
  | USqrt => sqrt x | URsqrt => / sqrt x | UTanh => tanh x | ULogistic => logistic x | UAtan => atan x | UAsin => asin x | UAcos => acos x
  | UPow k => x ^ k | UPowNeg k => / x ^ k | USoftplus => ln (1 + exp x) | USilu => x * logistic x
  end.
(* their first derivatives *)
Definition un_1 (u : unary) (x : R) : R :=
  match u with
  | USin => cos x | UCos => - sin x | UTan => / (cos x * cos x) | UExp => exp x | UExpm1 => exp x | ULog => / x | ULog1p => / (1 + x)
  | USqrt => / (2 * sqrt x) | URsqrt => - / (2 * x * sqrt x) | UTanh => 1 - tanh x * tanh x | ULogistic => logistic x * (1 - logistic x) | UAtan => / (1 + x * x)
  | UAsin => / sqrt (1 - x * x) | UAcos => - / sqrt (1 - x * x)
  | UPow k => INR k * x ^ pred k | UPowNeg k => - (INR k * / x ^ S k) | USoftplus => logistic x | USilu => logistic x + x * (logistic x * (1 - logistic x))
  end.
(* their second derivatives *)
Definition un_2 (u : unary) (x : R) : R :=
  match u with
  | USin => - sin x | UCos => - cos x | UTan => 2 * sin x / (cos x * cos x * cos x) | UExp => exp x | UExpm1 => exp x | ULog => - / (x * x) | ULog1p => - / ((1 + x) * (1 + x))
  | USqrt => - / (4 * x * sqrt x) | URsqrt => 3 / (4 * x * x * sqrt x) | UTanh => - 2 * tanh x * (1 - tanh x * tanh x)
  | ULogistic => logistic x * (1 - logistic x) * (1 - 2 * logistic x) | UAtan => - (2 * x) / ((1 + x * x) * (1 + x * x))
  | UAsin => x / ((1 - x * x) * sqrt (1 - x * x)) | UAcos => - x / ((1 - x * x) * sqrt (1 - x * x))
  | UPow k => INR k * (INR (pred k) * x ^ pred (pred k)) | UPowNeg k => INR k * (INR (S k) * / x ^ S (S k)) | USoftplus => logistic x * (1 - logistic x)
  | USilu => let s := logistic x in 2 * (s * (1 - s)) + x * (s * (1 - s) * (1 - 2 * s))
  end.
(* where the function is twice differentiable *)
Definition un_dom (u : unary) (x : R) : Prop :=
  match u with UTan => cos x <> 0 | ULog => 0 < x | ULog1p => 0 < 1 + x | USqrt => 0 < x | URsqrt => 0 < x | UAsin => -1 < x < 1 | UAcos => -1 < x < 1 | UPowNeg _ => x <> 0 | _ => True end.

Lemma logistic_den x : 1 + exp (- x) <> 0.
Proof. pose proof (exp_pos (- x)). lra. Qed.
Lemma d_logistic x : is_derive logistic x (logistic x * (1 - logistic x)).
Proof.
  unfold logistic. auto_derive; [apply logistic_den|]. pose proof (logistic_den x). field. exact H.
Qed.
Lemma d_tanh x : is_derive tanh x (1 - tanh x * tanh x).
Proof.
  assert (Hc : cosh x <> 0) by (unfold cosh; pose proof (exp_pos x); pose proof (exp_pos (- x)); lra).
  assert (H : is_derive (fun x => sinh x / cosh x) x ((cosh x * cosh x - sinh x * sinh x) / (cosh x * cosh x))).
  { apply is_derive_Reals. apply (derivable_pt_lim_div sinh cosh x (cosh x) (sinh x)); [apply derivable_pt_lim_sinh|apply derivable_pt_lim_cosh|exact Hc]. }
  replace (1 - tanh x * tanh x) with ((cosh x * cosh x - sinh x * sinh x) / (cosh x * cosh x)); [exact H|]. unfold tanh. field. exact Hc.
Qed.
Lemma d_sqrt x : 0 < x -> is_derive sqrt x (/ (2 * sqrt x)).
Proof. intros H. apply is_derive_Reals. apply derivable_pt_lim_sqrt. exact H. Qed.
Lemma d_sqrt1 x : -1 < x < 1 -> is_derive (fun x => sqrt (1 - x * x)) x (- x / sqrt (1 - x * x)).
Proof.
  intros H. assert (Hp : 0 < 1 - x * x) by nra. assert (Hs : sqrt (1 - x * x) <> 0) by (apply Rgt_not_eq, sqrt_lt_R0; exact Hp).
  evar_last. { apply (is_derive_comp sqrt (fun x => 1 - x * x)); [apply d_sqrt; exact Hp|]. auto_derive; auto. }
  unfold scal. cbn. unfold mult. cbn. field. exact Hs.
Qed.
Lemma d_asin x : -1 < x < 1 -> is_derive asin x (/ sqrt (1 - x * x)).
Proof. intros H. apply is_derive_Reals. pose proof (@derive_pt_asin x H) as HD. apply derive_pt_eq in HD. unfold Rsqr in HD. replace (/ sqrt (1 - x * x)) with (1 / sqrt (1 - x * x)) by (unfold Rdiv; ring). exact HD. Qed.
Lemma d_acos x : -1 < x < 1 -> is_derive acos x (- / sqrt (1 - x * x)).
Proof. intros H. apply is_derive_Reals. pose proof (@derive_pt_acos x H) as HD. apply derive_pt_eq in HD. unfold Rsqr in HD. replace (- / sqrt (1 - x * x)) with (-1 / sqrt (1 - x * x)) by (unfold Rdiv; ring). exact HD. Qed.
Lemma near_unit x : -1 < x < 1 -> locally x (fun u => -1 < u < 1).
Proof. intros [H1 H2]. apply filter_and; [apply (open_gt (-1)); exact H1|apply (open_lt 1); exact H2]. Qed.
Lemma all_x (x : R) : locally x (fun _ => True).
Proof. apply filter_forall. auto. Qed.
Theorem un_twice u x : un_dom u x -> twice (un_f u) (un_1 u) x (un_2 u x).
Proof.
  intros Hd. destruct u as [| | | | | | | | | | | | | |k|k| |]; cbn [un_dom] in Hd.
  - apply (twice_intro (all_x x)); [intros u _|]; unfold un_f, un_1, un_2; auto_derive; auto; ring.
  - apply (twice_intro (all_x x)); [intros u _|]; unfold un_f, un_1, un_2; auto_derive; auto; ring.
  - apply (@twice_intro (fun u => cos u <> 0)).
    + apply near_ne; auto. apply continuous_cos.
    + intros u Hu. unfold un_f, un_1. auto_derive; auto. pose proof (sin2_cos2 u) as E. unfold Rsqr in E. field_simplify; auto. f_equal. nra.
    + unfold un_1, un_2. auto_derive; [apply Rmult_integral_contrapositive_currified; auto|]. field. exact Hd.
  - apply (twice_intro (all_x x)); [intros u _|]; unfold un_f, un_1, un_2; auto_derive; auto; ring.
  - apply (twice_intro (all_x x)); [intros u _|]; unfold un_f, un_1, un_2; auto_derive; auto; ring.
  - apply (@twice_intro (fun u => 0 < u)); [apply (open_gt 0); exact Hd|..].
    + intros u Hu. unfold un_f, un_1. auto_derive; auto. field. lra.
    + unfold un_1, un_2. auto_derive; [lra|]. field. lra.
  - apply (@twice_intro (fun u => 0 < 1 + u)).
    + apply (@near_pos (fun u => 1 + u) x); auto. apply (continuous_plus (fun _ => 1) (fun u => u)); [apply continuous_const|apply continuous_id].
    + intros u Hu. unfold un_f, un_1. auto_derive; auto. field. lra.
    + unfold un_1, un_2. auto_derive; [lra|]. field. lra.
  - apply (@twice_intro (fun u => 0 < u)); [apply (open_gt 0); exact Hd|..].
    + intros u Hu. apply d_sqrt. exact Hu.
    + unfold un_1, un_2. assert (Hs : sqrt x <> 0) by (apply Rgt_not_eq, sqrt_lt_R0; exact Hd). auto_derive; [split; [exact Hd|split; [|auto]]; lra|].
      replace (4 * x * sqrt x) with (4 * (sqrt x * sqrt x) * sqrt x) by (rewrite sqrt_sqrt; lra). field. exact Hs.
  - apply (@twice_intro (fun u => 0 < u)); [apply (open_gt 0); exact Hd|..].
    + intros u Hu. unfold un_f, un_1. assert (Hs : sqrt u <> 0) by (apply Rgt_not_eq, sqrt_lt_R0; exact Hu). auto_derive; [auto|]. replace (2 * u * sqrt u) with (2 * (sqrt u * sqrt u) * sqrt u) by (rewrite sqrt_sqrt; lra). field. exact Hs.
    + unfold un_1, un_2. assert (Hs : sqrt x <> 0) by (apply Rgt_not_eq, sqrt_lt_R0; exact Hd).
      assert (Hx : 2 * x * sqrt x <> 0) by (apply Rmult_integral_contrapositive_currified; [lra|exact Hs]).
      auto_derive; [split; [exact Hd|split; auto]|]. set (s := sqrt x) in *. assert (E : x = s * s) by (unfold s; rewrite sqrt_sqrt; lra). clearbody s. subst x. field. exact Hs.
  - apply (twice_intro (all_x x)); [intros u _; apply d_tanh|]. unfold un_1, un_2.
    evar_last. { apply (is_derive_minus (fun _ => 1) (fun x => tanh x * tanh x)); [apply is_derive_const|]. apply (is_derive_mult tanh tanh); [apply d_tanh|apply d_tanh|]. intros; apply Rmult_comm. }
    unfold minus, plus, opp, zero, mult; cbn. ring.
  - apply (twice_intro (all_x x)); [intros u _; apply d_logistic|]. unfold un_1, un_2.
    evar_last. { apply (is_derive_mult logistic (fun x => 1 - logistic x)); [apply d_logistic| |intros; apply Rmult_comm]. apply (is_derive_minus (fun _ => 1) logistic); [apply is_derive_const|apply d_logistic]. }
    unfold minus, plus, opp, zero, mult; cbn. ring.
  - apply (twice_intro (all_x x)).
    + intros u _. unfold un_f, un_1. apply is_derive_Reals. pose proof (derivable_pt_lim_atan u) as HD. replace (/ (1 + u * u)) with (/ (1 + u ^ 2)) by (f_equal; ring). exact HD.
    + unfold un_1, un_2. assert (Hx : 1 + x * x <> 0) by nra. auto_derive; [auto|]. field. exact Hx.
  - apply (@twice_intro (fun u => -1 < u < 1)); [apply near_unit; exact Hd|apply d_asin|]. unfold un_1, un_2.
    assert (Hp : 0 < 1 - x * x) by nra. assert (Hs : sqrt (1 - x * x) <> 0) by (apply Rgt_not_eq, sqrt_lt_R0; exact Hp).
    evar_last. { apply (is_derive_inv (fun x => sqrt (1 - x * x))); [apply d_sqrt1; exact Hd|exact Hs]. }
    set (s := sqrt (1 - x * x)) in *. replace (1 - x * x) with (s * s) by (unfold s; rewrite sqrt_sqrt; lra). field. exact Hs.
  - apply (@twice_intro (fun u => -1 < u < 1)); [apply near_unit; exact Hd|apply d_acos|]. unfold un_1, un_2.
    assert (Hp : 0 < 1 - x * x) by nra. assert (Hs : sqrt (1 - x * x) <> 0) by (apply Rgt_not_eq, sqrt_lt_R0; exact Hp).
    evar_last. { apply (is_derive_opp (fun x => / sqrt (1 - x * x))). apply (is_derive_inv (fun x => sqrt (1 - x * x))); [apply d_sqrt1; exact Hd|exact Hs]. }
    unfold opp; cbn. set (s := sqrt (1 - x * x)) in *. replace (1 - x * x) with (s * s) by (unfold s; rewrite sqrt_sqrt; lra). field. exact Hs.
  - apply (twice_intro (all_x x)); [intros u _|]; unfold un_f, un_1, un_2; auto_derive; auto; ring.
  - apply (@twice_intro (fun u => u <> 0)); [apply (open_neq 0); exact Hd|..].
    + intros u Hu. unfold un_f, un_1. auto_derive; [apply pow_nonzero; exact Hu|]. destruct k as [|k]; [cbn; field; auto|]. cbn [pred]. pose proof (pow_nonzero u k Hu). cbn [pow]. field. auto.
    + unfold un_1, un_2. auto_derive; [apply (pow_nonzero x (S k)); exact Hd|]. pose proof (pow_nonzero x k Hd). cbn [pred pow]. change (match k with 0%nat => 1 | S _ => INR k + 1 end) with (INR (S k)). field. auto.
  - apply (twice_intro (all_x x)); [|apply d_logistic]. intros u _. unfold un_f, un_1, logistic. pose proof (exp_pos u). auto_derive; [lra|]. rewrite exp_Ropp. field. split; lra.
  - apply (twice_intro (all_x x)).
    + intros u _. unfold un_f, un_1. evar_last. { apply (is_derive_mult (fun x => x) logistic); [apply is_derive_id|apply d_logistic|intros; apply Rmult_comm]. } unfold plus, mult, one; cbn. ring.
    + unfold un_1, un_2. cbn zeta. evar_last. { apply (is_derive_plus logistic (fun x => x * (logistic x * (1 - logistic x)))); [apply d_logistic|]. apply (is_derive_mult (fun x => x) (fun x => logistic x * (1 - logistic x))); [apply is_derive_id| |intros; apply Rmult_comm].
        apply (is_derive_mult logistic (fun x => 1 - logistic x)); [apply d_logistic| |intros; apply Rmult_comm]. apply (is_derive_minus (fun _ => 1) logistic); [apply is_derive_const|apply d_logistic]. }
      unfold minus, plus, opp, zero, mult, one; cbn. ring.
Qed.
Lemma inv_twice x : x <> 0 -> twice Rinv (fun x => - (/ x * / x)) x (2 * (/ x * (/ x * / x))).
Proof.
  intros Hx. apply (@twice_intro (fun u => u <> 0)); [apply (open_neq 0); exact Hx|..].
  - intros u Hu. auto_derive; [exact Hu|]. field. exact Hu.
  - auto_derive; [auto|]. field. exact Hx.
Qed.
Lemma jet2_pos phi v d h : jet2 phi v d h -> 0 < v -> locally 0 (fun t => 0 < phi t).
Proof. intros HJ Hv. pose proof (jet2_cont HJ) as HC. destruct HJ as [E _]. apply (HC (fun y => 0 < y)). apply (open_gt 0). rewrite E. exact Hv. Qed.
Lemma jet2_minus phi psi v d h v' d' h' : jet2 phi v d h -> jet2 psi v' d' h' -> jet2 (fun t => phi t - psi t) (v - v') (d - d') (h - h').
Proof. intros H1 H2. apply (jet2_plus H1 (jet2_opp H2)). Qed.
