(* Prims.v : JAX primitives as [op]s (value, first and second partial derivatives), over any commutative ring.
   These are the functions /repo/folx/wrapped_functions.py:302-436 registers; JAX itself is not in /repo, so the
   definitions below are the mathematical ones. *)
From Verif Require Import OboFacts.
Set Implicit Arguments.

Section Prims.
Context {A : Type} {RA : CRing A}.
Add Ring Aring_Prims : (@rth A RA).
Open Scope cr_scope.

(* out[p] = phi(x_1[p], ..., x_m[p]) with numpy broadcasting *)
Definition ew_shape (xs : list (nd A)) : shape := match bshapes (map (@sh A) xs) with Some s => s | None => [] end.
(* the operands at output position p *)
Definition ew_vals (xs : list (nd A)) (p : ix) : list A := map (fun x => at_ x (bproj (sh x) p)) xs.
(* jax.lax elementwise functions with broadcasting, with first and second derivatives *)
Definition ew_op (phi : list A -> A) (d : list A -> nat -> A) (h : list A -> nat -> nat -> A) : op A :=
  Op (fun xs => Nd (ew_shape xs) (fun p => phi (ew_vals xs p)))
     (fun xs p a q => if ixeqb q (bproj (sh (nth a xs nd0)) p) then d (ew_vals xs p) a else 0)
     (fun xs p a q b r => if ixeqb q (bproj (sh (nth a xs nd0)) p) && ixeqb r (bproj (sh (nth b xs nd0)) p)
                          then h (ew_vals xs p) a b else 0).
(* lax.add, lax.sub, lax.mul, lax.neg *)
Definition op_add : op A := ew_op (fun v => nth 0%nat v 0 + nth 1%nat v 0) (fun _ a => if (a <? 2)%nat then 1 else 0) (fun _ _ _ => 0).
(* jax.lax.sub *)
Definition op_sub : op A := ew_op (fun v => nth 0%nat v 0 - nth 1%nat v 0)
  (fun _ a => match a with O => 1 | S O => ropp 1 | _ => 0 end) (fun _ _ _ => 0).
(* jax.lax.mul *)
Definition op_mul : op A := ew_op (fun v => nth 0%nat v 0 * nth 1%nat v 0)
  (fun v a => match a with O => nth 1%nat v 0 | S O => nth 0%nat v 0 | _ => 0 end)
  (fun _ a b => match a, b with O, S O => 1 | S O, O => 1 | _, _ => 0 end).
(* jax.lax.neg *)
Definition op_neg : op A := ew_op (fun v => - nth 0%nat v 0) (fun _ a => match a with O => ropp 1 | _ => 0 end) (fun _ _ _ => 0).
(* unary elementwise function with derivatives phi', phi'' *)
Definition op_unary (phi phi' phi'' : A -> A) : op A :=
  ew_op (fun v => phi (nth 0%nat v 0)) (fun v a => match a with O => phi' (nth 0%nat v 0) | _ => 0 end)
        (fun v a b => match a, b with O, O => phi'' (nth 0%nat v 0) | _, _ => 0 end).
(* lax.reduce_sum *)
Definition op_sum (axes : list nat) : op A :=
  Op (fun xs => np_sum axes (nth 0%nat xs nd0))
     (fun xs p a q => match a with O => if ixeqb (permute (keep_pos (ndim (nth 0%nat xs nd0)) axes) q) p then 1 else 0 | _ => 0 end)
     (fun _ _ _ _ _ _ => 0).
(* sum of squares over axes: a non-linear reduction *)
Definition op_sumsq (axes : list nat) : op A :=
  Op (fun xs => np_sum axes (ndmap (fun v => v * v) (nth 0%nat xs nd0)))
     (fun xs p a q => match a with O => if ixeqb (permute (keep_pos (ndim (nth 0%nat xs nd0)) axes) q) p
                                        then (1 + 1) * at_ (nth 0%nat xs nd0) q else 0 | _ => 0 end)
     (fun xs p a q b r => match a, b with O, O => if ixeqb (permute (keep_pos (ndim (nth 0%nat xs nd0)) axes) q) p && ixeqb q r
                                        then 1 + 1 else 0 | _, _ => 0 end).

Lemma ixeqb_eq p q : ixeqb p q = true <-> p = q.
Proof. unfold ixeqb. destruct (list_eq_dec Nat.eq_dec p q); split; congruence. Qed.
Lemma ixeqb_neq p q : p <> q -> ixeqb p q = false.
Proof. unfold ixeqb. destruct (list_eq_dec Nat.eq_dec p q); congruence. Qed.

Lemma ew_elementwise phi d h (xs : list (nd A)) : bshapes (map (@sh A) xs) <> None ->
  elementwise (ew_op phi d h) xs.
Proof.
  intros Hb. destruct (bshapes (map (@sh A) xs)) as [s|] eqn:E; [|congruence].
  destruct (bshapes_spec _ E) as [Hs _]. intros a Ha. cbn. unfold ew_shape. rewrite E. split.
  - apply Hs. apply in_map. apply nth_In; auto.
  - intros p q Hp Hq Hne. rewrite ixeqb_neq; auto.
Qed.
Lemma sum_is_sum axes x : is_sum (op_sum axes) x axes.
Proof. repeat split. Qed.
Lemma sumsq_reduces axes x : NoDup axes -> (forall d, In d axes -> (d < ndim x)%nat) -> reduces (op_sumsq axes) x axes.
Proof.
  intros Hnd Ha p q Hp Hq Hne. cbn. rewrite ixeqb_neq; auto. intros E. apply Hne. subst p.
  cbn in Hp. symmetry. apply bproj_same. apply Hp.
Qed.
End Prims.
