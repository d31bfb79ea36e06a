(* Calc.v : exactness of whole programs.  The meaning of the result of the interpreter (interpreter.py:80-219) in terms of derivatives of the
   ordinary evaluation of the program along curves through the input.  No code is modelled here. *)
From Coq Require Import Reals Lra.
From Coquelicot Require Import Coquelicot.
From Verif Require Export FwdLapl Jet.
Set Implicit Arguments.
Open Scope nat_scope.

(* for all t in some neighbourhood of 0 *)
Definition near (P : R -> Prop) : Prop := locally 0%R P.
Lemma near_and P Q : near P -> near Q -> near (fun t => P t /\ Q t).
Proof. apply filter_and. Qed.
Lemma near_imp (P Q : R -> Prop) : (forall t, P t -> Q t) -> near P -> near Q.
Proof. apply filter_imp. Qed.
Lemma near_all (P : R -> Prop) : (forall t, P t) -> near P.
Proof. intros H. apply filter_forall. exact H. Qed.
Lemma near_at P : near P -> P 0%R.
Proof. apply locally_singleton. Qed.
Lemma near_list {X} (P : X -> R -> Prop) (l : list X) : (forall x, In x l -> near (P x)) -> near (fun t => forall x, In x l -> P x t).
Proof.
  induction l as [|x l IH]; intros H; [apply near_all; intros t y []|]. apply near_imp with (P := fun t => P x t /\ forall y, In y l -> P y t).
  - intros t [H1 H2] y [<-|Hy]; auto.
  - apply near_and; [apply H; left; auto|]. apply IH. intros y Hy. apply H. right. exact Hy.
Qed.
Lemma near_nat (P : nat -> R -> Prop) n : (forall k, k < n -> near (P k)) -> near (fun t => forall k, k < n -> P k t).
Proof. intros H. apply near_imp with (P := fun t => forall k, In k (seq 0 n) -> P k t); [intros t HH k Hk; apply HH; apply in_seq; lia|]. apply near_list. intros k Hk. apply H. apply in_seq in Hk. lia. Qed.

(* ---- specification ---- *)
Section Smooth.
Context {A : Type} {RA : CRing A} {JA : @Jet A RA}.
(* w is a curve of arrays through x; entry p has derivative D p and second derivative H p at 0 *)
Definition jets (x : nd A) (D H : ix -> A) (w : R -> nd A) : Prop :=
  near (fun t => sh (w t) = sh x) /\ forall p, inb p (sh x) -> jt (fun t => at_ (w t) p) (at_ x p) (D p) (H p).
(* the same for a list of arrays *)
Definition curves (xs : list (nd A)) (D H : nat -> ix -> A) (W : R -> list (nd A)) : Prop :=
  near (fun t => length (W t) = length xs) /\ forall a, a < length xs -> jets (nth a xs nd0) (D a) (H a) (fun t => nth a (W t) nd0).
(* f is twice differentiable at xs with the stated first and second partial derivatives: the second-order chain rule holds along every curve *)
Definition smooth (f : op A) (xs : list (nd A)) : Prop := forall D H W, curves xs D H W ->
  jets (o_fwd f xs) (fun p => chain1 f xs p D) (fun p => radd (chain1 f xs p H) (quad f xs p D D)) (fun t => o_fwd f (W t)).
(* f is constant around xs *)
Definition flat_at (f : op A) (xs : list (nd A)) : Prop := forall D H W, curves xs D H W -> near (fun t => eqa (o_fwd f xs) (o_fwd f (W t))).
(* the value of f at xs does not depend on memory outside the arrays *)
Definition fwd_ext (f : op A) (xs : list (nd A)) : Prop := forall ys, Forall2 eqa xs ys -> eqa (o_fwd f xs) (o_fwd f ys).
Lemma jets_ext x D H w w' : near (fun t => w t = w' t) -> jets x D H w -> jets x D H w'.
Proof.
  intros HE [H1 H2]. split.
  - apply near_imp with (P := fun t => w t = w' t /\ sh (w t) = sh x); [intros t [<- E]; exact E|]. apply near_and; auto.
  - intros p Hp. apply jt_ext with (phi := fun t => at_ (w t) p); auto. revert HE. apply near_imp. intros t ->. reflexivity.
Qed.
Lemma jets_eq x D H D' H' w : (forall p, inb p (sh x) -> D p = D' p) -> (forall p, inb p (sh x) -> H p = H' p) -> jets x D H w -> jets x D' H' w.
Proof. intros HD HH [H1 H2]. split; auto. intros p Hp. eapply jt_eq; [apply H2; exact Hp|reflexivity|auto|auto]. Qed.
End Smooth.

Section Track.
Context {A : Type} {RA : CRing A} {JA : @Jet A RA}.
(* v is exact along the n curves w 0, ..., w (n-1): its value is w i 0, its Jacobian row i is the derivative of w i at 0 and its Laplacian is the
   sum of the n second derivatives; a plain array does not move. *)
Definition track (n : nat) (v : arg A) (w : nat -> R -> nd A) : Prop :=
  match v with
  | AX x => forall i, i < n -> near (fun t => eqa x (w i t))
  | AL a => awf n a /\ jrow1 (ljac a) /\ exists h, (forall i, i < n -> jets (lx a) (jent (ljac a) i) (h i) (w i)) /\ forall p, inb p (sh (lx a)) -> at_ (llap a) p = sumn n (fun i => h i p)
  end.
(* specification: values that carry the derivatives of curves *)
Fixpoint tracks (n : nat) (vs : list (arg A)) (W : nat -> R -> list (nd A)) : Prop :=
  match vs with
  | [] => forall i, i < n -> near (fun t => W i t = [])
  | v :: vs' => exists w W', (forall i, i < n -> near (fun t => W i t = w i t :: W' i t)) /\ track n v w /\ tracks n vs' W'
  end.

Lemma track_ext n v w w' : (forall i, i < n -> near (fun t => w i t = w' i t)) -> track n v w -> track n v w'.
Proof.
  intros HE. destruct v as [a|x]; cbn.
  - intros (H1 & H2 & h & H3 & H4). split; [exact H1|]. split; [exact H2|]. exists h. split; [|exact H4]. intros i Hi. apply jets_ext with (w := w i); auto.
  - intros H i Hi. apply near_imp with (P := fun t => w i t = w' i t /\ eqa x (w i t)); [intros t [<- E]; exact E|]. apply near_and; auto.
Qed.
Lemma tracks_ext n vs : forall W W', (forall i, i < n -> near (fun t => W i t = W' i t)) -> tracks n vs W -> tracks n vs W'.
Proof.
  destruct vs as [|v vs]; cbn; intros W W' HE H.
  - intros i Hi. apply near_imp with (P := fun t => W i t = W' i t /\ W i t = []); [intros t [<- E]; exact E|]. apply near_and; auto.
  - destruct H as (w & V & H1 & H2 & H3). exists w, V. split; [|auto]. intros i Hi. apply near_imp with (P := fun t => W i t = W' i t /\ W i t = w i t :: V i t); [intros t [<- E]; exact E|]. apply near_and; auto.
Qed.
Lemma tracks_length n vs : forall W i, tracks n vs W -> i < n -> near (fun t => length (W i t) = length vs).
Proof.
  induction vs as [|v vs IH]; cbn; intros W i H Hi.
  - generalize (H i Hi). apply near_imp. intros t ->. reflexivity.
  - destruct H as (w & V & H1 & H2 & H3). generalize (near_and (H1 i Hi) (IH V i H3 Hi)). apply near_imp. intros t [-> E]. cbn. lia.
Qed.
Lemma tracks_nth n vs : forall W m, tracks n vs W -> m < length vs -> track n (nth m vs (AX nd0)) (fun i t => nth m (W i t) nd0).
Proof.
  induction vs as [|v vs IH]; cbn [length]; intros W m H Hm; [lia|]. destruct H as (w & V & H1 & H2 & H3). destruct m as [|m]; cbn [nth].
  - apply track_ext with (w := w); auto. intros i Hi. generalize (H1 i Hi). apply near_imp. intros t ->. reflexivity.
  - apply track_ext with (w := fun i t => nth m (V i t) nd0); [|apply IH; [exact H3|lia]]. intros i Hi. generalize (H1 i Hi). apply near_imp. intros t ->. reflexivity.
Qed.
Lemma tracks_cons n v vs w W : track n v w -> tracks n vs W -> tracks n (v :: vs) (fun i t => w i t :: W i t).
Proof. intros H1 H2. exists w, W. split; auto. intros i Hi. apply near_all. reflexivity. Qed.
Lemma tracks_app n vs : forall W vs' W', tracks n vs W -> tracks n vs' W' -> tracks n (vs ++ vs') (fun i t => W i t ++ W' i t).
Proof.
  induction vs as [|v vs IH]; cbn [app]; intros W vs' W' H H'.
  - apply tracks_ext with (W := W'); auto. intros i Hi. generalize (H i Hi). apply near_imp. intros t ->. reflexivity.
  - destruct H as (w & V & H1 & H2 & H3). exists w, (fun i t => V i t ++ W' i t). split; [|auto]. intros i Hi. generalize (H1 i Hi). apply near_imp. intros t ->. reflexivity.
Qed.
Lemma tracks_firstn n k : forall vs W, tracks n vs W -> tracks n (firstn k vs) (fun i t => firstn k (W i t)).
Proof.
  induction k as [|k IH]; intros vs W H; [cbn; intros i Hi; apply near_all; reflexivity|]. destruct vs as [|v vs]; cbn [firstn].
  - cbn in H |- *. intros i Hi. generalize (H i Hi). apply near_imp. intros t ->. reflexivity.
  - destruct H as (w & V & H1 & H2 & H3). exists w, (fun i t => firstn k (V i t)). split; [|auto]. intros i Hi. generalize (H1 i Hi). apply near_imp. intros t ->. reflexivity.
Qed.
Lemma tracks_skipn n k : forall vs W, tracks n vs W -> tracks n (skipn k vs) (fun i t => skipn k (W i t)).
Proof.
  induction k as [|k IH]; intros vs W H; [exact H|]. destruct vs as [|v vs]; cbn [skipn].
  - cbn in H |- *. intros i Hi. generalize (H i Hi). apply near_imp. intros t ->. reflexivity.
  - destruct H as (w & V & H1 & H2 & H3). apply tracks_ext with (W := fun i t => skipn k (V i t)); [|apply IH; exact H3]. intros i Hi. generalize (H1 i Hi). apply near_imp. intros t ->. reflexivity.
Qed.
(* plain arrays *)
Lemma tracks_plain n xs : forall W, tracks n (map (@AX A) xs) W <-> forall i, i < n -> near (fun t => Forall2 eqa xs (W i t)).
Proof.
  induction xs as [|x xs IH]; intros W; cbn [map tracks].
  - split; intros H i Hi; generalize (H i Hi); apply near_imp; intros t; [intros ->; constructor|]. intros HH. inversion HH. reflexivity.
  - split.
    + intros (w & V & H1 & H2 & H3) i Hi. rewrite IH in H3. generalize (near_and (H1 i Hi) (near_and (H2 i Hi) (H3 i Hi))). apply near_imp. intros t (-> & E1 & E2). constructor; auto.
    + intros H. exists (fun i t => hd nd0 (W i t)), (fun i t => tl (W i t)). split; [|split].
      * intros i Hi. generalize (H i Hi). apply near_imp. intros t HH. inversion HH. reflexivity.
      * intros i Hi. generalize (H i Hi). apply near_imp. intros t HH. inversion HH; subst. cbn. auto.
      * apply IH. intros i Hi. generalize (H i Hi). apply near_imp. intros t HH. inversion HH; subst. cbn. auto.
Qed.

(* ---- a tracked list of arguments is a list of curves in every direction ---- *)
Lemma const_jet (phi : R -> A) c : near (fun t => c = phi t) -> jt phi c r0 r0.
Proof. intros H. apply jt_ext with (phi := fun _ => c); [exact H|]. apply jt_const. Qed.
Lemma track_jets n v w : track n v w -> exists h, (forall i, i < n -> jets (aval v) (vjac v i) (h i) (w i)) /\ forall p, inb p (sh (aval v)) -> vlap v p = sumn n (fun i => h i p).
Proof.
  destruct v as [a|x]; cbn [track aval].
  - intros (_ & _ & h & H1 & H2). exists h. split; auto.
  - intros H. exists (fun _ _ => r0). split.
    + intros i Hi. split; [generalize (H i Hi); apply near_imp; intros t [E _]; auto|]. intros p Hp. unfold vjac. cbn [lift ljac]. rewrite zero_jent. apply const_jet. generalize (H i Hi). apply near_imp. intros t [_ E]. apply E. exact Hp.
    + intros p Hp. unfold vlap. cbn [lift llap at_]. symmetry. apply (@sumn_zero A RA). intros; reflexivity.
Qed.
Lemma tracks_curves n vs W : tracks n vs W -> exists h, (forall i, i < n -> curves (map (@aval A) vs) (fun a => vjac (nth a vs (AX nd0)) i) (fun a => h a i) (W i)) /\
  forall a p, a < length vs -> inb p (sh (aval (nth a vs (AX nd0)))) -> vlap (nth a vs (AX nd0)) p = sumn n (fun i => h a i p).
Proof.
  revert W. induction vs as [|v vs IH]; intros W H.
  - exists (fun _ _ _ => r0). split; [|intros a p Ha; cbn in Ha; lia]. intros i Hi. split; [|intros a Ha; cbn in Ha; lia]. generalize (H i Hi). apply near_imp. intros t ->. reflexivity.
  - pose proof H as H'. destruct H as (w & V & H1 & H2 & H3). destruct (IH V H3) as (h & K1 & K2). destruct (track_jets _ _ _ H2) as (g & G1 & G2).
    exists (fun a => match a with O => g | S a' => h a' end). split.
    + intros i Hi. destruct (K1 i Hi) as [L1 L2]. split.
      * generalize (near_and (H1 i Hi) L1). apply near_imp. intros t [-> E]. cbn. lia.
      * intros a Ha. cbn [map length] in Ha. destruct a as [|a]; cbn [map nth].
        -- apply jets_ext with (w := w i); [|apply G1; exact Hi]. generalize (H1 i Hi). apply near_imp. intros t ->. reflexivity.
        -- apply jets_ext with (w := fun t => nth a (V i t) nd0); [|apply L2; lia]. generalize (H1 i Hi). apply near_imp. intros t ->. reflexivity.
    + intros a p Ha Hp. destruct a as [|a]; cbn [nth] in *; auto. apply K2; auto. cbn in Ha. lia.
Qed.

(* ---- one primitive ---- *)
Definition prim_good (n : nat) (fs : list (op A)) (args outs : list (arg A)) : Prop :=
  Forall2 (fun f o => match o with AL a => arg_ok n f args a /\ jrow1 (ljac a) /\ smooth f (map (@aval A) args) | AX y => y = o_fwd f (map (@aval A) args) /\ flat_at f (map (@aval A) args) end) fs outs.
Lemma chain1_sum (f : op A) xs p n (v : nat -> nat -> ix -> A) : chain1 f xs p (fun a q => sumn n (fun i => v a i q)) = sumn n (fun i => chain1 f xs p (fun a q => v a i q)).
Proof.
  unfold chain1. rewrite sumn_swap. apply sumn_ext. intros a Ha. unfold sumn at 2. rewrite sumL_swap. apply sumL_ext. intros q Hq. unfold sumn. rewrite <- sumL_scale. reflexivity.
Qed.
Lemma vjac_lift (args : list (arg A)) a i q : jent (ljac (nth a (map (@lift A RA) args) la0)) i q = if a <? length args then vjac (nth a args (AX nd0)) i q else jent (ljac (@la0 A RA)) i q.
Proof.
  destruct (Nat.ltb_spec a (length args)) as [H|H]; [|rewrite nth_overflow by (rewrite map_length; exact H); reflexivity]. rewrite nth_map_in with (dx := AX nd0) by exact H. reflexivity.
Qed.
Lemma out_track n f args W a : tracks n args W -> arg_ok n f args a -> jrow1 (ljac a) -> smooth f (map (@aval A) args) -> track n (AL a) (fun i t => o_fwd f (W i t)).
Proof.
  intros HT (O1 & O2 & O3 & O4) Hr HS. destruct (tracks_curves _ _ _ HT) as (h & K1 & K2). split; [exact O2|]. split; [exact Hr|]. set (xs := map (@aval A) args) in *.
  exists (fun i p => radd (chain1 f xs p (fun b => h b i)) (quad f xs p (fun b => vjac (nth b args (AX nd0)) i) (fun b => vjac (nth b args (AX nd0)) i))).
  assert (ED : forall i p, dspec f (map (@lift A RA) args) i p = chain1 f xs p (fun b => vjac (nth b args (AX nd0)) i)).
  { intros i p. unfold dspec. rewrite xs_lift. fold xs. apply chain1_ext. intros b q Hb Hq. rewrite vjac_lift. unfold xs in Hb. rewrite map_length in Hb. destruct (Nat.ltb_spec b (length args)); [reflexivity|lia]. }
  split.
  - intros i Hi. pose proof (HS _ _ _ (K1 i Hi)) as HJ. rewrite <- O1 in HJ. apply jets_eq with (3 := HJ); [|reflexivity]. intros p Hp. rewrite O1 in Hp. rewrite O3 by exact Hp. symmetry. apply ED.
  - intros p Hp. rewrite O1 in Hp. rewrite O4 by exact Hp. symmetry. transitivity (radd (sumn n (fun i => chain1 f xs p (fun b => h b i))) (sumn n (fun i => quad f xs p (fun b => vjac (nth b args (AX nd0)) i) (fun b => vjac (nth b args (AX nd0)) i)))); [apply (@sumL_add A RA)|]. apply f_equal2.
    + rewrite <- chain1_sum. unfold lspec. rewrite xs_lift. fold xs. apply chain1_ext. intros b q Hb Hq. unfold xs in Hb. rewrite map_length in Hb. rewrite nth_map_in with (dx := AX nd0) by exact Hb. symmetry. apply K2; auto.
      unfold xs in Hq. rewrite nth_map_in with (dx := AX nd0) in Hq by exact Hb. exact Hq.
    + unfold hspec. apply sumn_ext. intros i Hi. rewrite xs_lift. fold xs. symmetry. apply quad_ext; intros b q Hb Hq; rewrite vjac_lift; unfold xs in Hb; rewrite map_length in Hb; (destruct (Nat.ltb_spec b (length args)); [reflexivity|lia]).
Qed.
Lemma prim_tracks n fs args W outs : tracks n args W -> prim_good n fs args outs -> tracks n outs (fun i t => map (fun f => o_fwd f (W i t)) fs).
Proof.
  intros HT H. induction H as [|f o fs outs Ho H IH]; cbn [map].
  - intros i Hi. apply near_all. reflexivity.
  - apply tracks_cons; [|exact IH]. destruct o as [a|y].
    + destruct Ho as (O1 & O2 & O3). apply out_track with (args := args); auto.
    + destruct Ho as [-> O2]. cbn. intros i Hi. destruct (tracks_curves _ _ _ HT) as (h & K1 & K2). apply (O2 _ _ _ (K1 i Hi)).
Qed.
End Track.
