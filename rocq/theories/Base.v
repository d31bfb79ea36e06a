(* Base.v : commutative rings and finite sums.  Generic mathematics, models no code. *)
From Coq Require Export List Arith ZArith Lia Bool Ring Permutation.
From Coq Require Import ZifyBool.
Export ListNotations.
Set Implicit Arguments.
#[global] Arguments Nat.ltb : simpl never.

(* The number type of all arrays: an arbitrary commutative ring. *)
Class CRing (A : Type) := {
  r0 : A; r1 : A;
  radd : A -> A -> A; rmul : A -> A -> A; rsub : A -> A -> A; ropp : A -> A;
  rth : ring_theory r0 r1 radd rmul rsub ropp (@eq A)
}.
Declare Scope cr_scope.
Delimit Scope cr_scope with cr.
Notation "x + y" := (radd x y) : cr_scope.
Notation "x * y" := (rmul x y) : cr_scope.
Notation "x - y" := (rsub x y) : cr_scope.
Notation "- x" := (ropp x) : cr_scope.
Notation "0" := r0 : cr_scope.
Notation "1" := r1 : cr_scope.

#[export] Instance CRing_Z : CRing Z := {|
  r0 := 0%Z; r1 := 1%Z; radd := Z.add; rmul := Z.mul; rsub := Z.sub; ropp := Z.opp;
  rth := Zth |}.

Section Sums.
Context {A : Type} {RA : CRing A}.
Add Ring Aring : (@rth A RA).
Open Scope cr_scope.

(* finite sum over a list *)
Fixpoint sumL {X} (l : list X) (f : X -> A) : A :=
  match l with [] => 0 | x :: l' => f x + sumL l' f end.
(* sum over 0..n-1 *)
Definition sumn (n : nat) (f : nat -> A) : A := sumL (seq 0 n) f.

Lemma sumL_ext {X} (l : list X) f g :
  (forall x, In x l -> f x = g x) -> sumL l f = sumL l g.
Proof.
  induction l as [|x l IH]; cbn; intros H; [reflexivity|].
  rewrite H by auto. rewrite IH; auto.
Qed.
Lemma sumL_zero {X} (l : list X) f : (forall x, In x l -> f x = 0) -> sumL l f = 0.
Proof.
  induction l as [|x l IH]; cbn; intros H; [reflexivity|].
  rewrite H by auto. rewrite IH; [ring|auto].
Qed.
Lemma sumL_add {X} (l : list X) f g : sumL l (fun x => f x + g x) = sumL l f + sumL l g.
Proof. induction l as [|x l IH]; cbn; [ring|]. rewrite IH. ring. Qed.
Lemma sumL_sub {X} (l : list X) f g : sumL l (fun x => f x - g x) = sumL l f - sumL l g.
Proof. induction l as [|x l IH]; cbn; [ring|]. rewrite IH. ring. Qed.
Lemma sumL_scale {X} (l : list X) c f : sumL l (fun x => c * f x) = c * sumL l f.
Proof. induction l as [|x l IH]; cbn; [ring|]. rewrite IH. ring. Qed.
Lemma sumL_scale_r {X} (l : list X) c f : sumL l (fun x => f x * c) = sumL l f * c.
Proof. induction l as [|x l IH]; cbn; [ring|]. rewrite IH. ring. Qed.
Lemma sumL_opp {X} (l : list X) f : sumL l (fun x => - f x) = - sumL l f.
Proof. induction l as [|x l IH]; cbn; [ring|]. rewrite IH. ring. Qed.
Lemma sumL_app {X} (l1 l2 : list X) f : sumL (l1 ++ l2) f = sumL l1 f + sumL l2 f.
Proof. induction l1 as [|x l IH]; cbn; [ring|]. rewrite IH. ring. Qed.
Lemma sumL_map {X Y} (g : Y -> X) (l : list Y) f : sumL (map g l) f = sumL l (fun y => f (g y)).
Proof. induction l as [|x l IH]; cbn; [ring|]. rewrite IH. ring. Qed.
Lemma sumL_flat_map {X Y} (g : Y -> list X) (l : list Y) f :
  sumL (flat_map g l) f = sumL l (fun y => sumL (g y) f).
Proof. induction l as [|x l IH]; cbn; [reflexivity|]. rewrite sumL_app, IH. reflexivity. Qed.
Lemma sumL_swap {X Y} (l : list X) (m : list Y) f :
  sumL l (fun x => sumL m (fun y => f x y)) = sumL m (fun y => sumL l (fun x => f x y)).
Proof.
  induction l as [|x l IH]; cbn.
  - symmetry. apply sumL_zero. auto.
  - rewrite IH, sumL_add. reflexivity.
Qed.
Lemma sumL_mul {X Y} (l : list X) (m : list Y) f g :
  sumL l f * sumL m g = sumL l (fun x => sumL m (fun y => f x * g y)).
Proof.
  rewrite <- sumL_scale_r. apply sumL_ext. intros x _. rewrite <- sumL_scale. reflexivity.
Qed.
Lemma sumL_perm {X} (l m : list X) f : Permutation l m -> sumL l f = sumL m f.
Proof.
  induction 1 as [|x l m _ IH|x y l|l m k _ IH1 _ IH2]; cbn; try ring.
  - rewrite IH. ring.
  - congruence.
Qed.
Lemma sumL_filter {X} (P : X -> bool) (l : list X) f :
  sumL (filter P l) f = sumL l (fun x => if P x then f x else 0).
Proof. induction l as [|x l IH]; cbn; [ring|]. destruct (P x); cbn; rewrite IH; ring. Qed.
Lemma sumL_single {X} (l : list X) x f :
  NoDup l -> In x l -> (forall y, In y l -> y <> x -> f y = 0) -> sumL l f = f x.
Proof.
  intros Hnd Hin Hz. induction l as [|y l IH]; cbn in *; [tauto|].
  inversion Hnd as [|? ? Hny Hnd']; subst. destruct Hin as [->|Hin].
  - rewrite sumL_zero; [ring|]. intros z Hz'. apply Hz; auto. congruence.
  - rewrite Hz; [|auto|congruence]. rewrite IH; auto. ring.
Qed.
(* sums over two lists that agree outside of zeros *)
Lemma sumL_incl {X} (l m : list X) (f : X -> A) :
  NoDup l -> NoDup m -> incl l m -> (forall x, In x m -> ~ In x l -> f x = 0) ->
  (forall x y : X, {x = y} + {x <> y}) -> sumL m f = sumL l f.
Proof.
  intros Hl Hm Hi Hz dec.
  transitivity (sumL (filter (fun x => if in_dec dec x l then true else false) m) f).
  - rewrite sumL_filter. apply sumL_ext. intros x Hx.
    destruct (in_dec dec x l); auto.
  - apply sumL_perm. apply NoDup_Permutation; auto.
    + apply NoDup_filter; auto.
    + intros x. rewrite filter_In. destruct (in_dec dec x l); split; intros H; auto; try tauto.
      destruct H; discriminate.
Qed.

Lemma sumn_ext n f g : (forall i, (i < n)%nat -> f i = g i) -> sumn n f = sumn n g.
Proof. intros H. apply sumL_ext. intros x Hx. apply in_seq in Hx. apply H. lia. Qed.
Lemma sumn_zero n f : (forall i, (i < n)%nat -> f i = 0) -> sumn n f = 0.
Proof. intros H. apply sumL_zero. intros x Hx. apply in_seq in Hx. apply H. lia. Qed.
Lemma sumn_single n k f : (k < n)%nat -> (forall i, (i < n)%nat -> i <> k -> f i = 0) -> sumn n f = f k.
Proof.
  intros Hk H. apply sumL_single; [apply seq_NoDup|apply in_seq; lia|].
  intros y Hy Hn. apply in_seq in Hy. apply H; lia.
Qed.
Lemma sumL_seq_shift a n f : sumL (seq a n) f = sumn n (fun i => f (a + i)%nat).
Proof.
  unfold sumn. revert a f. induction n as [|n IH]; intros a f; cbn; [reflexivity|].
  rewrite (IH (S a)), (IH 1%nat). rewrite Nat.add_0_r. f_equal. apply sumL_ext.
  intros x _. f_equal. lia.
Qed.
Lemma sumn_split a b f : sumn (a + b) f = sumn a f + sumn b (fun i => f (a + i)%nat).
Proof. unfold sumn at 1. rewrite seq_app, sumL_app, (sumL_seq_shift (0 + a)). reflexivity. Qed.
Lemma sumn_S n f : sumn (S n) f = f 0%nat + sumn n (fun i => f (S i)).
Proof. unfold sumn at 1. cbn [seq sumL]. rewrite sumL_seq_shift. reflexivity. Qed.
Lemma sumn_last n f : sumn (S n) f = sumn n f + f n.
Proof. replace (S n) with (n + 1)%nat by lia. rewrite sumn_split. unfold sumn at 2. cbn.
  rewrite Nat.add_0_r. ring. Qed.
Lemma sumn_ge n m f : (n <= m)%nat -> (forall i, (n <= i)%nat -> (i < m)%nat -> f i = 0) -> sumn m f = sumn n f.
Proof.
  intros H Hz. replace m with (n + (m - n))%nat by lia. rewrite sumn_split.
  rewrite (sumn_zero (n := (m - n)%nat)); [ring|]. intros i Hi. apply Hz; lia.
Qed.
Lemma sumn_swap n m f : sumn n (fun i => sumn m (fun j => f i j)) = sumn m (fun j => sumn n (fun i => f i j)).
Proof. apply sumL_swap. Qed.
Lemma sumL_nth {X} (d : X) (l : list X) f : sumn (length l) (fun i => f (nth i l d)) = sumL l f.
Proof.
  induction l as [|x l IH]; [reflexivity|]. cbn [length]. rewrite sumn_S. cbn [nth sumL].
  rewrite IH. reflexivity.
Qed.
End Sums.

(* position of the first occurrence (length of the list when absent) *)
Fixpoint pos (d : nat) (l : list nat) : nat :=
  match l with [] => 0 | x :: l' => if Nat.eqb x d then 0 else S (pos d l') end.

Lemma pos_lt d l : In d l -> pos d l < length l.
Proof.
  induction l as [|x l IH]; cbn; [tauto|]. destruct (Nat.eqb_spec x d); [lia|].
  intros [H|H]; [lia|]. apply IH in H. lia.
Qed.
Lemma nth_pos d l def : In d l -> nth (pos d l) l def = d.
Proof.
  induction l as [|x l IH]; cbn; [tauto|]. destruct (Nat.eqb_spec x d); [auto|].
  intros [H|H]; [lia|]. apply IH; auto.
Qed.
Lemma pos_nth l k def : NoDup l -> k < length l -> pos (nth k l def) l = k.
Proof.
  revert k. induction l as [|x l IH]; cbn; intros k Hnd Hk; [lia|].
  inversion Hnd as [|? ? Hn Hnd']; subst. destruct k as [|k].
  - rewrite Nat.eqb_refl. reflexivity.
  - destruct (Nat.eqb_spec x (nth k l def)) as [->|].
    + exfalso. apply Hn. apply nth_In. lia.
    + f_equal. apply IH; auto. lia.
Qed.
Lemma map_nth_seq {X} (l : list X) d : map (fun i => nth i l d) (seq 0 (length l)) = l.
Proof.
  apply nth_ext with (d := d) (d' := d); [rewrite map_length, seq_length; reflexivity|].
  intros n Hn. rewrite map_length, seq_length in Hn.
  rewrite (nth_indep _ d (nth 0 l d)) by (rewrite map_length, seq_length; auto).
  rewrite map_nth with (f := fun i => nth i l d). rewrite seq_nth; auto.
Qed.
Lemma nth_map_in {X Y} (f : X -> Y) l n dx dy : n < length l -> nth n (map f l) dy = f (nth n l dx).
Proof.
  intros H. rewrite (nth_indep _ dy (f dx)) by (rewrite map_length; auto). apply map_nth.
Qed.
