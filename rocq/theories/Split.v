(* Split.v : model of utils.py:264-297 split_args (on the flat list of leaves), and of the merge function it returns. *)
From Verif Require Export HessRules.
Set Implicit Arguments.

(* utils.py:284-287  tuple(l for l, m in zip(leaves, mask) if m)   /   ... if not m *)
Fixpoint select {X} (b : bool) (mask : list bool) (l : list X) : list X :=
  match mask, l with
  | m :: mask', x :: l' => if Bool.eqb m b then x :: select b mask' l' else select b mask' l'
  | _, _ => []
  end.
(* utils.py:289-294 the returned merge function *)
Definition merge_of (mask : list bool) : mergefn := fun X => @merge_mask mask X.
(* number of True / False entries of the mask *)
Definition count (b : bool) (mask : list bool) : nat := length (filter (Bool.eqb b) mask).

(* merging what was split restores every leaf at its place *)
Theorem split_merge {X} mask (l : list X) : length mask = length l -> merge_of mask (select true mask l) (select false mask l) = l.
Proof.
  unfold merge_of. revert l. induction mask as [|m mask IH]; destruct l as [|x l]; cbn; intros H; try discriminate; auto.
  destruct m; cbn; rewrite IH; auto.
Qed.
Lemma select_length {X} b mask (l : list X) : length mask = length l -> length (select b mask l) = count b mask.
Proof.
  unfold count. revert l. induction mask as [|m mask IH]; destruct l as [|x l]; cbn; intros H; try discriminate; auto.
  destruct m, b; cbn; rewrite ?IH by lia; reflexivity.
Qed.
Lemma select_map {X Y} (f : X -> Y) b mask : forall l, select b mask (map f l) = map f (select b mask l).
Proof. induction mask as [|m mask IH]; destruct l; cbn; auto. destruct (Bool.eqb m b); cbn; rewrite IH; auto. Qed.
Lemma select_In {X} b mask : forall (l : list X) x, In x (select b mask l) -> In x l.
Proof. induction mask as [|m mask IH]; destruct l; cbn; try tauto. destruct (Bool.eqb m b); cbn; intros y H; [destruct H|]; auto. Qed.
Theorem merge_split {X} mask : forall (l m : list X), length l = count true mask -> length m = count false mask ->
  length (merge_of mask l m) = length mask /\ select true mask (merge_of mask l m) = l /\ select false mask (merge_of mask l m) = m.
Proof.
  unfold merge_of, count. induction mask as [|b mask IH]; intros l m Hl Hm.
  - destruct l, m; cbn in *; try discriminate; auto.
  - destruct b; cbn in Hl, Hm.
    + destruct l as [|x l]; [discriminate|]; cbn [length] in Hl, Hm. destruct (IH l m ltac:(lia) ltac:(lia)) as (H1 & H2 & H3). cbn. rewrite H1, H2, H3. auto.
    + destruct m as [|x m]; [discriminate|]; cbn [length] in Hl, Hm. destruct (IH l m ltac:(lia) ltac:(lia)) as (H1 & H2 & H3). cbn. rewrite H1, H2, H3. auto.
Qed.

(* the merge function moves its arguments to fixed places *)
Fixpoint lay (mask : list bool) (n i e : nat) : list nat :=
  match mask with [] => [] | true :: m' => i :: lay m' n (S i) e | false :: m' => (n + e) :: lay m' n i (S e) end.
Lemma lay_perm n mask : forall i e, Permutation (lay mask n i e) (seq i (count true mask) ++ seq (n + e) (count false mask)).
Proof.
  unfold count. induction mask as [|b mask IH]; intros i e; cbn; auto. destruct b; cbn.
  - constructor. apply IH.
  - rewrite (IH i (S e)). rewrite Nat.add_succ_r. apply Permutation_middle.
Qed.
Lemma merge_lay {X} (d : X) mask : forall xs extra i e, length xs = i + count true mask -> length extra = e + count false mask ->
  @merge_mask mask X (skipn i xs) (skipn e extra) = map (fun j => nth j (xs ++ extra) d) (lay mask (length xs) i e).
Proof.
  unfold count. induction mask as [|b mask IH]; intros xs extra i e Hx He; cbn; auto. destruct b; cbn in Hx, He; cbn [lay map merge_mask].
  - assert (E : skipn i xs = nth i xs d :: skipn (S i) xs).
    { clear -Hx. revert i Hx. induction xs as [|x xs IHx]; destruct i; cbn; intros Hx; try lia; auto. cbn in Hx. rewrite IHx by lia. reflexivity. }
    rewrite E. rewrite IH by lia. rewrite app_nth1 by lia. reflexivity.
  - assert (E : skipn e extra = nth e extra d :: skipn (S e) extra).
    { clear -He. revert e He. induction extra as [|x xs IHx]; destruct e; cbn; intros He; try lia; auto. cbn in He. rewrite IHx by lia. reflexivity. }
    rewrite E. rewrite IH by lia. rewrite app_nth2 by lia. replace (length xs + e - length xs) with e by lia. reflexivity.
Qed.
Theorem merge_of_ok mask : merge_ok (merge_of mask) (count true mask) (count false mask).
Proof.
  exists (lay mask (count true mask) 0 0). split.
  - rewrite lay_perm. rewrite Nat.add_0_r. rewrite seq_app. reflexivity.
  - intros X d xs extra Hx He. unfold merge_of.
    rewrite <- Hx. change xs with (skipn 0 xs) at 1. change extra with (skipn 0 extra) at 1. apply merge_lay; auto.
Qed.

Lemma merge_mask_map {X Y} (f : X -> Y) mask : forall xs es, @merge_mask mask Y (map f xs) (map f es) = map f (@merge_mask mask X xs es).
Proof. induction mask as [|b mask IH]; intros xs es; cbn; auto. destruct b; [destruct xs|destruct es]; cbn; auto; rewrite IH; auto. Qed.

Section Setups.
Context {A : Type} {RA : CRing A}.
(* every elementwise function (in_axes = ()) and every extensional function (in_axes = None) meets the batching contract *)
Lemma setup_ew n phi d h mask (args : list (lapl A)) extra : (0 < n)%nat -> args <> [] -> (forall a, In a args -> awf n a) ->
  length args = count true mask -> length extra = count false mask -> bshapes (map (@sh A) (merge_of mask (xs_of args) extra)) <> None ->
  setup n (ew_op phi d h) (merge_of mask) args (map (fun _ => []) args) extra (map (fun _ => []) extra).
Proof.
  intros Hn Ha Hw L1 L2 Hb. split; auto.
  - rewrite L1, L2. apply merge_of_ok.
  - unfold xs_of. replace (map (fun _ => []) args) with (map (fun _ : nd A => @nil nat) (map (@lx A) args)) by (rewrite map_map; reflexivity). apply axes_ok_nil.
  - apply axes_ok_nil.
  - replace (map (fun _ => []) args) with (map (fun _ : nd A => @nil nat) (xs_of args)) by (unfold xs_of; rewrite map_map; reflexivity).
    unfold merge_of at 1. rewrite merge_mask_map. apply ew_batched. exact Hb.
Qed.
Lemma setup_full n f mask (args : list (lapl A)) extra : (0 < n)%nat -> args <> [] -> (forall a, In a args -> awf n a) ->
  length args = count true mask -> length extra = count false mask -> op_ext f (merge_of mask (xs_of args) extra) ->
  setup n f (merge_of mask) args (map (fun a => seq 0 (ndim (lx a))) args) extra (map (fun e => seq 0 (ndim e)) extra).
Proof.
  intros Hn Ha Hw L1 L2 Hb. split; auto.
  - rewrite L1, L2. apply merge_of_ok.
  - unfold xs_of. replace (map (fun a => seq 0 (ndim (lx a))) args) with (map (fun x : nd A => seq 0 (ndim x)) (map (@lx A) args)) by (rewrite map_map; reflexivity). apply axes_ok_all.
  - apply axes_ok_all.
  - replace (map (fun a => seq 0 (ndim (lx a))) args) with (map (fun x : nd A => seq 0 (ndim x)) (xs_of args)) by (unfold xs_of; rewrite map_map; reflexivity).
    unfold merge_of at 1. rewrite merge_mask_map. apply full_batched. exact Hb.
Qed.
End Setups.
