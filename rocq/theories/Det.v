(* Det.v : determinants and inverses of square matrices, and their derivatives.  Independent specification used to state what slogdet computes
   (C22, C47); no code is modelled here.  A matrix is a function of two indices below m. *)
From Verif Require Export Base.
From Coq Require Import Lia Bool.
Set Implicit Arguments.

Section Det.
Context {A : Type} {RA : CRing A}.
Add Ring Aring_Det : (@rth A RA).
Open Scope cr_scope.
Notation mx := (nat -> nat -> A).
(* the k-th index different from j *)
Definition skip (j k : nat) : nat := if (k <? j)%nat then k else S k.
(* M without row 0 and column j *)
Definition minor (j : nat) (M : mx) : mx := fun i k => M (S i) (skip j k).
(* specification: (-1)^j *)
Definition sg (j : nat) : A := if Nat.even j then 1 else - (1).
(* expansion along the first row *)
Fixpoint det (m : nat) (M : mx) : A := match m with O => 1 | S m' => sumn (S m') (fun j => sg j * M 0%nat j * det m' (minor j M)) end.
(* specification: the identity matrix *)
Definition delta (i j : nat) : A := if Nat.eqb i j then 1 else 0.
(* replace column c / row r *)
Definition upc (M : mx) (c : nat) (v : nat -> A) : mx := fun i j => if Nat.eqb j c then v i else M i j.
(* specification: replace a row *)
Definition upr (M : mx) (r : nat) (v : nat -> A) : mx := fun i j => if Nat.eqb i r then v j else M i j.
(* specification: matrix product *)
Definition mmul (m : nat) (M N : mx) : mx := fun i j => sumn m (fun k => M i k * N k j).
(* specification: trace *)
Definition mtrace (m : nat) (M : mx) : A := sumn m (fun i => M i i).

Lemma nscale n c (f : nat -> A) : sumn n (fun i => c * f i) = c * sumn n f.
Proof. apply sumL_scale. Qed.
Lemma nscale_r n c (f : nat -> A) : sumn n (fun i => f i * c) = sumn n f * c.
Proof. apply sumL_scale_r. Qed.
Lemma nadd n (f g : nat -> A) : sumn n (fun i => f i + g i) = sumn n f + sumn n g.
Proof. apply sumL_add. Qed.
Lemma nopp n (f : nat -> A) : sumn n (fun i => - f i) = - sumn n f.
Proof. apply sumL_opp. Qed.
Lemma det_S m M : det (S m) M = sumn (S m) (fun j => sg j * M 0%nat j * det m (minor j M)).
Proof. reflexivity. Qed.
Lemma skip_lt j k m : (j <= m)%nat -> (k < m)%nat -> (skip j k < S m)%nat.
Proof. unfold skip. destruct (Nat.ltb_spec k j); lia. Qed.
Lemma skip_ne j k : skip j k <> j.
Proof. unfold skip. destruct (Nat.ltb_spec k j); lia. Qed.
Lemma det_ext m : forall M M', (forall i j, (i < m)%nat -> (j < m)%nat -> M i j = M' i j) -> det m M = det m M'.
Proof.
  induction m as [|m IH]; intros M M' H; [reflexivity|]. rewrite !det_S. apply sumn_ext. intros j Hj. rewrite H by lia. f_equal. apply IH. intros i k Hi Hk. unfold minor. apply H; [lia|]. apply skip_lt; lia.
Qed.
(* a sum over all indices but one *)
Lemma sumn_skip m : forall j (g : nat -> A), (j <= m)%nat -> sumn (S m) g = g j + sumn m (fun k => g (skip j k)).
Proof.
  induction m as [|m IH]; intros j g Hj.
  - assert (j = 0%nat) by lia. subst. reflexivity.
  - destruct j as [|j].
    + rewrite sumn_S. f_equal.
    + rewrite sumn_S. rewrite (IH j (fun i => g (S i)) ltac:(lia)). rewrite (sumn_S m (fun k => g (skip (S j) k))).
      replace (skip (S j) 0) with 0%nat by reflexivity. rewrite (@sumn_ext _ _ m (fun k => g (skip (S j) (S k))) (fun k => g (S (skip j k)))); [ring|].
      intros k Hk. f_equal. unfold skip. destruct (Nat.ltb_spec k j), (Nat.ltb_spec (S k) (S j)); lia.
Qed.
(* ---- columns ---- *)
Lemma minor_upc_same M c v i k : minor c (upc M c v) i k = minor c M i k.
Proof. unfold minor, upc. destruct (Nat.eqb_spec (skip c k) c) as [E|E]; [destruct (@skip_ne _ _ E)|reflexivity]. Qed.
Lemma skip_inj j k k' : skip j k = skip j k' -> k = k'.
Proof. unfold skip. destruct (Nat.ltb_spec k j), (Nat.ltb_spec k' j); lia. Qed.
Lemma minor_upc_skip M j k v i l : minor j (upc M (skip j k) v) i l = upc (minor j M) k (fun i => v (S i)) i l.
Proof.
  unfold minor, upc. destruct (Nat.eqb_spec (skip j l) (skip j k)) as [E|E], (Nat.eqb_spec l k) as [E'|E']; auto.
  - destruct E'. apply (@skip_inj _ _ _ E). - subst. congruence.
Qed.
Lemma skip_onto j c m : (j <= m)%nat -> (c < S m)%nat -> c <> j -> exists k, (k < m)%nat /\ c = skip j k.
Proof.
  intros Hj Hc Hne. destruct (Nat.ltb_spec c j).
  - exists c. split; [lia|]. unfold skip. destruct (Nat.ltb_spec c j); lia.
  - exists (c - 1)%nat. split; [lia|]. unfold skip. destruct (Nat.ltb_spec (c - 1) j); lia.
Qed.
(* the determinant is linear in each column *)
Lemma upc_other m M j c v : (j <= m)%nat -> (c < S m)%nat -> c <> j -> exists k, (k < m)%nat /\ c = skip j k /\ upc M c v 0%nat j = M 0%nat j /\
  forall m', det m' (minor j (upc M c v)) = det m' (upc (minor j M) k (fun i => v (S i))).
Proof.
  intros Hj Hc Hne. destruct (@skip_onto j c m Hj Hc Hne) as (k & Hk & ->). exists k. split; [exact Hk|]. split; [reflexivity|]. split.
  - unfold upc. destruct (Nat.eqb_spec j (skip j k)); [congruence|reflexivity].
  - intros m'. apply det_ext. intros i l _ _. apply minor_upc_skip.
Qed.
Lemma det_upc_sum m : forall M c K (a : nat -> A) (v : nat -> nat -> A), (c < m)%nat ->
  det m (upc M c (fun i => sumn K (fun k => a k * v k i))) = sumn K (fun k => a k * det m (upc M c (v k))).
Proof.
  induction m as [|m IH]; intros M c K a v Hc; [lia|]. rewrite det_S.
  transitivity (sumn (S m) (fun j => sumn K (fun k => a k * (sg j * upc M c (v k) 0%nat j * det m (minor j (upc M c (v k))))))).
  - apply sumn_ext. intros j Hj. destruct (Nat.eq_dec c j) as [<-|Hne].
    + assert (E : forall w, det m (minor c (upc M c w)) = det m (minor c M)) by (intros w; apply det_ext; intros; apply minor_upc_same).
      rewrite E. unfold upc at 1. rewrite Nat.eqb_refl. rewrite <- nscale, <- nscale_r. apply sumn_ext. intros k _. rewrite E. unfold upc. rewrite Nat.eqb_refl. ring.
    + destruct (@upc_other m M j c (fun i => sumn K (fun k => a k * v k i))) as (k0 & Hk0 & Ec & E0 & E1); auto; [lia|]. rewrite E0, E1.
      rewrite (IH (minor j M) k0 K a (fun k i => v k (S i)) Hk0). rewrite <- nscale. apply sumn_ext. intros k _.
      destruct (@upc_other m M j c (v k)) as (k1 & Hk1 & Ec1 & F0 & F1); auto; [lia|]. rewrite F0, F1. rewrite Ec in Ec1. apply skip_inj in Ec1. subst k1. ring.
  - rewrite sumn_swap. apply sumn_ext. intros k _. rewrite det_S. apply nscale.
Qed.
(* two equal adjacent columns *)
Lemma sg_S j : sg (S j) = - sg j.
Proof. unfold sg. rewrite Nat.even_succ, <- Nat.negb_even. destruct (Nat.even j); cbn; ring. Qed.
Lemma sg_sq j : sg j * sg j = 1.
Proof. unfold sg. destruct (Nat.even j); ring. Qed.
Lemma sumn_two m a b (f : nat -> A) : (a < m)%nat -> (b < m)%nat -> a <> b -> (forall j, (j < m)%nat -> j <> a -> j <> b -> f j = 0) -> sumn m f = f a + f b.
Proof.
  intros Ha Hb Hne H. destruct m as [|m]; [lia|]. rewrite (@sumn_skip m a f) by lia. f_equal. destruct (@skip_onto a b m) as (k & Hk & E); try lia. rewrite E. apply (@sumn_single _ _ m k (fun k => f (skip a k)) Hk).
  intros i Hi Hik. apply H; [apply skip_lt; lia|apply skip_ne|]. intros E'. apply Hik. rewrite E in E'. apply (@skip_inj _ _ _ E').
Qed.
Lemma det_adj_cols m : forall M c, (S c < m)%nat -> (forall i, (i < m)%nat -> M i c = M i (S c)) -> det m M = 0.
Proof.
  induction m as [|m IH]; intros M c Hc HE; [lia|]. rewrite det_S. rewrite (@sumn_two (S m) c (S c)); try lia.
  - rewrite sg_S, (HE 0%nat) by lia. rewrite (@det_ext m (minor c M) (minor (S c) M)); [ring|]. intros i k Hi Hk. unfold minor, skip.
    destruct (Nat.ltb_spec k c), (Nat.ltb_spec k (S c)); try lia; auto. replace k with c by lia. symmetry. apply HE. lia.
  - intros j Hj H1 H2. rewrite (IH (minor j M) (if (c <? j)%nat then c else c - 1)%nat); [ring| |].
    + destruct (Nat.ltb_spec c j); lia.
    + intros i Hi. unfold minor, skip. destruct (Nat.ltb_spec c j).
      * destruct (Nat.ltb_spec c j), (Nat.ltb_spec (S c) j); try lia. apply HE. lia.
      * destruct (Nat.ltb_spec (c - 1) j), (Nat.ltb_spec (S (c - 1)) j); try lia. replace (S (c - 1)) with c by lia. apply HE. lia.
Qed.
(* ---- rows ---- *)
Lemma minor_upr_0 M j v i k : minor j (upr M 0 v) i k = minor j M i k.
Proof. reflexivity. Qed.
Lemma minor_upr_S M j r v i k : minor j (upr M (S r) v) i k = upr (minor j M) r (fun k => v (skip j k)) i k.
Proof. reflexivity. Qed.
Lemma det_upr_sum m : forall M r K (a : nat -> A) (v : nat -> nat -> A), (r < m)%nat ->
  det m (upr M r (fun i => sumn K (fun k => a k * v k i))) = sumn K (fun k => a k * det m (upr M r (v k))).
Proof.
  induction m as [|m IH]; intros M r K a v Hr; [lia|]. rewrite det_S.
  transitivity (sumn (S m) (fun j => sumn K (fun k => a k * (sg j * upr M r (v k) 0%nat j * det m (minor j (upr M r (v k))))))).
  - apply sumn_ext. intros j Hj. destruct r as [|r].
    + assert (E : forall w, det m (minor j (upr M 0 w)) = det m (minor j M)) by (intros w; apply det_ext; intros; apply minor_upr_0).
      rewrite E. unfold upr at 1. cbn [Nat.eqb]. rewrite <- nscale, <- nscale_r. apply sumn_ext. intros k _. rewrite E. unfold upr. cbn [Nat.eqb]. ring.
    + assert (E : forall w, det m (minor j (upr M (S r) w)) = det m (upr (minor j M) r (fun k => w (skip j k)))) by (intros w; apply det_ext; intros; apply minor_upr_S).
      rewrite E, (IH (minor j M) r K a (fun k i => v k (skip j i))) by lia. unfold upr at 1. cbn [Nat.eqb]. rewrite <- nscale. apply sumn_ext. intros k _. rewrite E. unfold upr at 2. cbn [Nat.eqb]. ring.
  - rewrite sumn_swap. apply sumn_ext. intros k _. rewrite det_S. apply nscale.
Qed.
Lemma antisym_sum n (H : nat -> nat -> A) : (forall i, H i i = 0) -> (forall i j, H i j = - H j i) -> sumn n (fun i => sumn n (fun j => H i j)) = 0.
Proof.
  intros H0 H1. induction n as [|n IH]; [reflexivity|]. rewrite sumn_last. rewrite (@sumn_ext _ _ n _ (fun i => sumn n (fun j => H i j) + H i n)) by (intros i _; apply sumn_last).
  rewrite nadd, IH, sumn_last, H0.
  replace (sumn n (fun i => H i n)) with (- sumn n (fun i => H n i)); [ring|]. rewrite <- nopp. apply sumn_ext. intros i _. rewrite (H1 i n). reflexivity.
Qed.
(* deleting two columns in either order *)
Lemma skip_skip a b x : (a < b)%nat -> skip b (skip a x) = skip a (skip (b - 1) x).
Proof. intros H. unfold skip. destruct (Nat.ltb_spec x a), (Nat.ltb_spec x (b - 1)); repeat match goal with |- context [Nat.ltb ?u ?v] => destruct (Nat.ltb_spec u v) end; lia. Qed.
Lemma det_rows01 m M : (forall j, (j < S (S m))%nat -> M 0%nat j = M 1%nat j) -> det (S (S m)) M = 0.
Proof.
  intros HE. rewrite det_S.
  set (G := fun a b => det m (fun i k => M (S (S i)) (skip b (skip a k)))).
  set (H := fun j l => if (l <? j)%nat then sg j * sg l * (M 0%nat j * M 0%nat l) * G l j else if (j <? l)%nat then - (sg j * sg l * (M 0%nat j * M 0%nat l) * G j l) else 0).
  assert (HH0 : forall i, H i i = 0) by (intros i; unfold H; rewrite Nat.ltb_irrefl; reflexivity).
  transitivity (sumn (S (S m)) (fun j => sumn (S (S m)) (fun l => H j l))).
  - apply sumn_ext. intros j Hj. rewrite (@sumn_skip (S m) j (fun l => H j l)) by lia. rewrite HH0. replace (0 + sumn (S m) (fun k => H j (skip j k))) with (sumn (S m) (fun k => H j (skip j k))) by ring.
    rewrite det_S. rewrite <- nscale. apply sumn_ext. intros k Hk. unfold minor at 1. rewrite <- HE by (apply skip_lt; lia).
    unfold H. destruct (Nat.ltb_spec k j) as [Hkj|Hkj].
    + replace (skip j k) with k by (unfold skip; destruct (Nat.ltb_spec k j); lia). destruct (Nat.ltb_spec k j); [|lia].
      rewrite (@det_ext m (minor k (minor j M)) (fun i k0 => M (S (S i)) (skip j (skip k k0)))) by reflexivity. fold (G k j). ring.
    + replace (skip j k) with (S k) by (unfold skip; destruct (Nat.ltb_spec k j); lia). destruct (Nat.ltb_spec (S k) j); [lia|]. destruct (Nat.ltb_spec j (S k)); [|lia].
      unfold G. rewrite (@det_ext m (minor k (minor j M)) (fun i k0 => M (S (S i)) (skip (S k) (skip j k0)))); [rewrite sg_S; ring|].
      intros i l _ _. unfold minor. rewrite (@skip_skip j (S k) l) by lia. replace (S k - 1)%nat with k by lia. reflexivity.
  - apply antisym_sum; auto. intros i j. unfold H. destruct (Nat.ltb_spec j i), (Nat.ltb_spec i j); try lia; ring.
Qed.
Lemma det_adj_rows m : forall M r, (S r < m)%nat -> (forall j, (j < m)%nat -> M r j = M (S r) j) -> det m M = 0.
Proof.
  induction m as [|m IH]; intros M r Hr HE; [lia|]. destruct r as [|r].
  - destruct m as [|m]; [lia|]. apply det_rows01. exact HE.
  - rewrite det_S. apply sumn_zero. intros j Hj. rewrite (IH (minor j M) r); [ring|lia|]. intros k Hk. unfold minor. apply HE. apply skip_lt; lia.
Qed.
(* exchanging two adjacent lines, then two arbitrary equal lines; [up] stands for upr or upc *)
Lemma sum1 (f : nat -> A) : sumn 1 f = f 0%nat.
Proof. unfold sumn. cbn. ring. Qed.
Lemma sum2 (f : nat -> A) : sumn 2 f = f 0%nat + f 1%nat.
Proof. unfold sumn. cbn. ring. Qed.
Lemma det_upr_add m M r u v : (r < m)%nat -> det m (upr M r (fun j => u j + v j)) = det m (upr M r u) + det m (upr M r v).
Proof.
  intros Hr. pose proof (@det_upr_sum m M r 2 (fun _ => 1) (fun k => match k with O => u | _ => v end) Hr) as H. rewrite sum2 in H.
  rewrite (@det_ext m (upr M r (fun j => u j + v j)) (upr M r (fun i => sumn 2 (fun k => 1 * match k with O => u | _ => v end i)))); [rewrite H; ring|]. intros i j _ _. unfold upr. rewrite sum2. destruct (Nat.eqb i r); ring.
Qed.
Lemma det_upc_add m M c u v : (c < m)%nat -> det m (upc M c (fun j => u j + v j)) = det m (upc M c u) + det m (upc M c v).
Proof.
  intros Hr. pose proof (@det_upc_sum m M c 2 (fun _ => 1) (fun k => match k with O => u | _ => v end) Hr) as H. rewrite sum2 in H.
  rewrite (@det_ext m (upc M c (fun j => u j + v j)) (upc M c (fun i => sumn 2 (fun k => 1 * match k with O => u | _ => v end i)))); [rewrite H; ring|]. intros i j _ _. unfold upc. rewrite sum2. destruct (Nat.eqb j c); ring.
Qed.
Lemma det_swap_rows m M r : (S r < m)%nat -> det m (upr (upr M r (M (S r))) (S r) (M r)) = - det m M.
Proof.
  intros Hr. set (D u v := det m (upr (upr M r u) (S r) v)). set (a := M r). set (b := M (S r)).
  assert (Haa : forall u, D u u = 0).
  { intros u. apply (@det_adj_rows m _ r); [lia|]. intros j Hj. unfold upr. rewrite Nat.eqb_refl. destruct (Nat.eqb_spec r (S r)); [lia|]. rewrite Nat.eqb_refl. reflexivity. }
  assert (Hadd2 : forall u v w, D u (fun j => v j + w j) = D u v + D u w) by (intros; apply det_upr_add; lia).
  assert (Hcom : forall u v, D u v = det m (upr (upr M (S r) v) r u)).
  { intros u v. apply det_ext. intros i j _ _. unfold upr. destruct (Nat.eqb_spec i (S r)), (Nat.eqb_spec i r); auto; lia. }
  assert (Hadd1 : forall u v w, D (fun j => u j + v j) w = D u w + D v w) by (intros; rewrite !Hcom; apply det_upr_add; lia).
  assert (HM : D a b = det m M). { apply det_ext. intros i j _ _. unfold upr, a, b. destruct (Nat.eqb_spec i (S r)) as [->|]; auto. destruct (Nat.eqb_spec i r) as [->|]; auto. }
  pose proof (Haa (fun j => a j + b j)) as E. rewrite Hadd1, !Hadd2, !Haa in E. fold a b. fold (D b a). rewrite <- HM.
  replace (D b a) with ((0 + D a b + (D b a + 0)) - D a b) by ring. rewrite E. ring.
Qed.
Lemma det_swap_cols m M r : (S r < m)%nat -> det m (upc (upc M r (fun i => M i (S r))) (S r) (fun i => M i r)) = - det m M.
Proof.
  intros Hr. set (D u v := det m (upc (upc M r u) (S r) v)). set (a := fun i => M i r). set (b := fun i => M i (S r)).
  assert (Haa : forall u, D u u = 0).
  { intros u. apply (@det_adj_cols m _ r); [lia|]. intros j Hj. unfold upc. rewrite Nat.eqb_refl. destruct (Nat.eqb_spec r (S r)); [lia|]. rewrite Nat.eqb_refl. reflexivity. }
  assert (Hadd2 : forall u v w, D u (fun j => v j + w j) = D u v + D u w) by (intros; apply det_upc_add; lia).
  assert (Hcom : forall u v, D u v = det m (upc (upc M (S r) v) r u)).
  { intros u v. apply det_ext. intros i j _ _. unfold upc. destruct (Nat.eqb_spec j (S r)), (Nat.eqb_spec j r); auto; lia. }
  assert (Hadd1 : forall u v w, D (fun j => u j + v j) w = D u w + D v w) by (intros; rewrite !Hcom; apply det_upc_add; lia).
  assert (HM : D a b = det m M). { apply det_ext. intros i j _ _. unfold upc, a, b. destruct (Nat.eqb_spec j (S r)) as [->|]; auto. destruct (Nat.eqb_spec j r) as [->|]; auto. }
  pose proof (Haa (fun j => a j + b j)) as E. rewrite Hadd1, !Hadd2, !Haa in E. fold a b. fold (D b a). rewrite <- HM.
  replace (D b a) with ((0 + D a b + (D b a + 0)) - D a b) by ring. rewrite E. ring.
Qed.
Lemma neg_zero (x : A) : - x = 0 -> x = 0.
Proof. intros H. replace x with (- - x) by ring. rewrite H. ring. Qed.
Lemma det_eq_rows m : forall d M r, (r + S d < m)%nat -> (forall j, (j < m)%nat -> M r j = M (r + S d)%nat j) -> det m M = 0.
Proof.
  induction d as [|d IH]; intros M r Hr HE.
  - apply (@det_adj_rows m M r); [lia|]. intros j Hj. rewrite HE by auto. f_equal. lia.
  - apply neg_zero. rewrite <- (@det_swap_rows m M (r + S d)) by lia. apply (IH _ r); [lia|]. intros j Hj. unfold upr.
    destruct (Nat.eqb_spec r (S (r + S d))); [lia|]. destruct (Nat.eqb_spec r (r + S d)); [lia|]. destruct (Nat.eqb_spec (r + S d) (S (r + S d))); [lia|]. rewrite Nat.eqb_refl. rewrite HE by auto. f_equal. lia.
Qed.
Lemma det_eq_cols m : forall d M r, (r + S d < m)%nat -> (forall j, (j < m)%nat -> M j r = M j (r + S d)%nat) -> det m M = 0.
Proof.
  induction d as [|d IH]; intros M r Hr HE.
  - apply (@det_adj_cols m M r); [lia|]. intros j Hj. rewrite HE by auto. f_equal. lia.
  - apply neg_zero. rewrite <- (@det_swap_cols m M (r + S d)) by lia. apply (IH _ r); [lia|]. intros j Hj. unfold upc.
    destruct (Nat.eqb_spec r (S (r + S d))); [lia|]. destruct (Nat.eqb_spec r (r + S d)); [lia|]. destruct (Nat.eqb_spec (r + S d) (S (r + S d))); [lia|]. rewrite Nat.eqb_refl. rewrite HE by auto. f_equal. lia.
Qed.
Lemma det_same_rows m M r s : (r < m)%nat -> (s < m)%nat -> r <> s -> (forall j, (j < m)%nat -> M r j = M s j) -> det m M = 0.
Proof.
  intros Hr Hs Hne HE. destruct (Nat.ltb_spec r s).
  - apply (@det_eq_rows m (s - r - 1) M r); [lia|]. intros j Hj. rewrite HE by auto. f_equal. lia.
  - apply (@det_eq_rows m (r - s - 1) M s); [lia|]. intros j Hj. rewrite <- HE by auto. f_equal. lia.
Qed.
Lemma det_same_cols m M r s : (r < m)%nat -> (s < m)%nat -> r <> s -> (forall j, (j < m)%nat -> M j r = M j s) -> det m M = 0.
Proof.
  intros Hr Hs Hne HE. destruct (Nat.ltb_spec r s).
  - apply (@det_eq_cols m (s - r - 1) M r); [lia|]. intros j Hj. rewrite HE by auto. f_equal. lia.
  - apply (@det_eq_cols m (r - s - 1) M s); [lia|]. intros j Hj. rewrite <- HE by auto. f_equal. lia.
Qed.
(* ---- cofactors ---- *)
Definition cofc (m : nat) (M : mx) (i j : nat) : A := det m (upc M j (fun r => delta r i)).
(* specification: cofactor by a row *)
Definition cofr (m : nat) (M : mx) (i j : nat) : A := det m (upr M i (fun c => delta c j)).
Lemma sum_delta m k (v : nat -> A) : (k < m)%nat -> sumn m (fun i => v i * delta k i) = v k.
Proof. intros Hk. rewrite (@sumn_single _ _ m k); [unfold delta; rewrite Nat.eqb_refl; ring|exact Hk|]. intros i Hi Hne. unfold delta. destruct (Nat.eqb_spec k i); [congruence|ring]. Qed.
Lemma sum_delta' m k (v : nat -> A) : (k < m)%nat -> sumn m (fun i => v i * delta i k) = v k.
Proof. intros Hk. rewrite <- (@sum_delta m k v Hk). apply sumn_ext. intros i _. unfold delta. rewrite Nat.eqb_sym. reflexivity. Qed.
(* replacing a column by v, in terms of the cofactors *)
Lemma cof_col m M j v : (j < m)%nat -> sumn m (fun i => v i * cofc m M i j) = det m (upc M j v).
Proof.
  intros Hj. unfold cofc. rewrite <- (@det_upc_sum m M j m v (fun i r => delta r i) Hj). apply det_ext. intros i k Hi _. unfold upc. destruct (Nat.eqb k j); auto. apply sum_delta. exact Hi.
Qed.
Lemma cof_row m M i v : (i < m)%nat -> sumn m (fun j => v j * cofr m M i j) = det m (upr M i v).
Proof.
  intros Hi. unfold cofr. rewrite <- (@det_upr_sum m M i m v (fun j c => delta c j) Hi). apply det_ext. intros r k _ Hk. unfold upr. destruct (Nat.eqb r i); auto. apply sum_delta. exact Hk.
Qed.
Lemma upc_self m M j k : (j < m)%nat -> (k < m)%nat -> det m (upc M j (fun i => M i k)) = delta j k * det m M.
Proof.
  intros Hj Hk. unfold delta. destruct (Nat.eqb_spec j k) as [<-|Hne].
  - rewrite (@det_ext m (upc M j (fun i => M i j)) M); [ring|]. intros r c _ _. unfold upc. destruct (Nat.eqb_spec c j) as [->|]; auto.
  - rewrite (@det_same_cols m _ j k) by (auto; intros r Hr; unfold upc; rewrite Nat.eqb_refl; destruct (Nat.eqb_spec k j); congruence). ring.
Qed.
Lemma upr_self m M i k : (i < m)%nat -> (k < m)%nat -> det m (upr M i (M k)) = delta i k * det m M.
Proof.
  intros Hj Hk. unfold delta. destruct (Nat.eqb_spec i k) as [<-|Hne].
  - rewrite (@det_ext m (upr M i (M i)) M); [ring|]. intros r c _ _. unfold upr. destruct (Nat.eqb_spec r i) as [->|]; auto.
  - rewrite (@det_same_rows m _ i k) by (auto; intros r Hr; unfold upr; rewrite Nat.eqb_refl; destruct (Nat.eqb_spec k i); congruence). ring.
Qed.
Lemma cofc_inverse m M j k : (j < m)%nat -> (k < m)%nat -> sumn m (fun i => M i k * cofc m M i j) = delta j k * det m M.
Proof. intros Hj Hk. rewrite (@cof_col m M j (fun i => M i k) Hj). apply upc_self; auto. Qed.
Lemma cofr_inverse m M i k : (i < m)%nat -> (k < m)%nat -> sumn m (fun j => M k j * cofr m M i j) = delta i k * det m M.
Proof. intros Hi Hk. rewrite (@cof_row m M i (M k) Hi). apply upr_self; auto. Qed.
End Det.
