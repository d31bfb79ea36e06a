(* VmapFacts.v : batched_vmap equals vmap.  Proofs only. *)
From Verif Require Export Vmap.
Set Implicit Arguments.

(* relation on results of computations that may raise *)
Definition orel {X Y} (R : X -> Y -> Prop) (a : option X) (b : option Y) : Prop :=
  match a, b with Some x, Some y => R x y | None, None => True | _, _ => False end.

Section F.
Context {A : Type} (d0 : A).
Local Notation nd_ := (@Nd A [] (fun _ => d0)).

Lemma seqo_rel {X Y} (R : X -> Y -> Prop) l m : Forall2 (orel R) l m -> orel (Forall2 R) (seqo l) (seqo m).
Proof.
  induction 1 as [|a b l m H _ IH]; cbn; [constructor|].
  destruct a, b; cbn in H; try tauto. destruct (seqo l), (seqo m); cbn in *; try tauto. constructor; auto.
Qed.
Lemma seqo_app {X} (l m : list (option X)) : seqo (l ++ m) = let* a := seqo l in let* b := seqo m in Some (a ++ b).
Proof.
  induction l as [|[x|] l IH]; cbn; [destruct (seqo m); reflexivity| |reflexivity].
  rewrite IH. destruct (seqo l); cbn; [|reflexivity]. destruct (seqo m); reflexivity.
Qed.
Lemma seqo_concat {X} (ls : list (list (option X))) : seqo (concat ls) = option_map (@concat X) (seqo (map (@seqo X) ls)).
Proof.
  induction ls as [|l ls IH]; [reflexivity|]. cbn [concat map seqo]. rewrite seqo_app, IH.
  destruct (seqo l); cbn; [|reflexivity]. destruct (seqo (map _ ls)); reflexivity.
Qed.
Lemma seqo_length {X} (l : list (option X)) r : seqo l = Some r -> length r = length l.
Proof.
  revert r. induction l as [|[x|] l IH]; cbn; intros r H; [injection H as <-; reflexivity| |discriminate].
  destruct (seqo l); cbn in H; [|discriminate]. injection H as <-. cbn. f_equal. auto.
Qed.
Lemma seqo_map_opt {X Y} (g : X -> Y) (l : list (option X)) : seqo (map (option_map g) l) = option_map (map g) (seqo l).
Proof. induction l as [|[x|] l IH]; cbn; [reflexivity| |reflexivity]. rewrite IH. destruct (seqo l); reflexivity. Qed.
Lemma seq_chunks m k : forall a, seq a (k * m) = concat (map (fun c => seq (a + c * m) m) (seq 0 k)).
Proof.
  induction k as [|k IH]; intros a; [reflexivity|].
  cbn [Nat.mul seq map concat]. rewrite seq_app. rewrite Nat.add_0_r. f_equal. rewrite IH.
  rewrite <- seq_shift, map_map. f_equal. apply map_ext. intros c. f_equal. lia.
Qed.

Lemma Forall2_nth {X Y} (R : X -> Y -> Prop) l m d e : Forall2 R l m -> forall i, i < length l -> R (nth i l d) (nth i m e).
Proof. induction 1; cbn; intros i Hi; [lia|]. destruct i; [auto|]. apply IHForall2. lia. Qed.
Lemma Forall2_len {X Y} (R : X -> Y -> Prop) l m : Forall2 R l m -> length l = length m.
Proof. induction 1; cbn; congruence. Qed.
Lemma Forall2_map_seq {X Y} (R : X -> Y -> Prop) f g n : (forall i, i < n -> R (f i) (g i)) ->
  Forall2 R (map f (seq 0 n)) (map g (seq 0 n)).
Proof.
  intros H. assert (HI : forall i, In i (seq 0 n) -> i < n) by (intros i Hi; apply in_seq in Hi; lia).
  induction (seq 0 n) as [|x l IH]; cbn; constructor; [apply H; apply HI; now left|].
  apply IH. intros i Hi. apply HI. now right.
Qed.
Lemma eqa_refl (a : nd A) : eqa a a.
Proof. split; auto. Qed.
Lemma eqa_trans (a b c : nd A) : eqa a b -> eqa b c -> eqa a c.
Proof. intros [H1 H2] [H3 H4]. split; [congruence|]. intros i Hi. rewrite H2 by auto. apply H4. congruence. Qed.

(* ---- axes ------------------------------------------------------------------------------------------- *)
Lemma insn_inb : forall d x n (i s : list nat), d <= length s -> x < n -> inb i s -> inb (insn d x i) (insn d n s).
Proof.
  induction d; intros x n i s Hd Hx Hi; cbn [insn]; [constructor; auto|].
  destruct Hi as [|a b i s Hab Hi]; cbn in Hd; [lia|]. cbn. constructor; auto. apply IHd; auto; lia.
Qed.
Lemma insn_drop : forall d (s : list nat), d < length s -> insn d (nth d s 0) (dropn d s) = s.
Proof. induction d; intros [|a s] H; cbn in *; try lia; [reflexivity|]. f_equal. apply IHd. lia. Qed.
Lemma drop_insn_inb : forall d n (i s : list nat), d <= length s -> inb i (insn d n s) -> nth d i 0 < n /\ inb (dropn d i) s.
Proof.
  induction d; intros n i s Hd Hi; cbn [insn] in Hi.
  - inversion Hi; subst. cbn. auto.
  - destruct s as [|b s]; cbn in Hd; [lia|]. cbn [insn] in Hi. inversion Hi as [|a ? i' ? Hab Hi']; subst. cbn.
    destruct (IHd n i' s) as [H1 H2]; auto; [lia|]. split; [auto|constructor; auto].
Qed.
Lemma dropn_length : forall d (s : list nat), d < length s -> length (dropn d s) = length s - 1.
Proof. induction d; intros [|a s] H; cbn in *; try lia. rewrite IHd by lia. lia. Qed.
Lemma prod_drop : forall d (s : list nat), d < length s -> prod s = nth d s 0 * prod (dropn d s).
Proof. induction d; intros [|a s] H; cbn in *; try lia. rewrite (IHd s) by lia. lia. Qed.

Lemma axis_lt n ax d : axis n ax = Some d -> d < n.
Proof.
  unfold axis. destruct ((- Z.of_nat n <=? ax) && (ax <? Z.of_nat n))%Z eqn:E; [|discriminate].
  intros H. injection H as <-. apply andb_prop in E. destruct E as [E1 E2]. apply Z.leb_le in E1. apply Z.ltb_lt in E2.
  destruct (ax <? 0)%Z eqn:E; lia.
Qed.

(* rewriting the mapped leaves *)
Definition pick {X} (g : nat -> nd A -> X) (ds : list (option nat)) (args : list (nd A)) : list X :=
  concat (map2 (fun o a => match o with None => [] | Some d => [g d a] end) ds args).
Lemma pick_map {X Y} (h : X -> Y) g ds : forall args, map h (pick g ds args) = pick (fun d a => h (g d a)) ds args.
Proof.
  induction ds as [|[d|] ds IH]; intros [|a args]; try reflexivity; unfold pick in *; cbn; [f_equal|]; apply IH.
Qed.
Definition mask_of (ds : list (option nat)) := map (fun o : option nat => match o with Some _ => true | None => false end) ds.
Lemma merge_pick g ds : forall args : list (nd A), length ds = length args ->
  merge (mask_of ds) (pick g ds args) (mapped (map negb (mask_of ds)) args)
  = map2 (fun o a => match o with None => a | Some d => g d a end) ds args.
Proof.
  induction ds as [|[d|] ds IH]; intros [|a args] H; try discriminate; try reflexivity; unfold pick in *; cbn; f_equal;
    apply IH; cbn in H; congruence.
Qed.
Definition axes_in (ds : list (option nat)) (args : list (nd A)) : Prop :=
  Forall2 (fun o a => match o with None => True | Some d => d < ndim a end) ds args.
Lemma in_ax_ok axes : forall args ds, in_ax axes args = Some ds -> axes_in ds args.
Proof.
  unfold in_ax. intros args ds. destruct (Nat.eqb_spec (length axes) (length args)) as [E|]; [|discriminate].
  revert args ds E. induction axes as [|ax axes IH]; intros [|a args] ds E; try discriminate; cbn.
  - intros H. injection H as <-. constructor.
  - destruct ax as [z|].
    + destruct (axis (ndim a) z) as [d|] eqn:Ea; cbn; [|discriminate].
      destruct (seqo (map2 _ axes args)) as [r|] eqn:Er; cbn; [|discriminate]. intros H. injection H as <-.
      constructor; [eapply axis_lt; eauto|]. apply IH; auto.
    + destruct (seqo (map2 _ axes args)) as [r|] eqn:Er; cbn; [|discriminate]. intros H. injection H as <-.
      constructor; [exact I|]. apply IH; auto.
Qed.
Lemma sizes_pick ds (args : list (nd A)) : sizes ds args = pick (fun d a => nth d (sh a) 0) ds args.
Proof. reflexivity. Qed.

(* ---- functions of arrays ------------------------------------------------------------------------------ *)
(* a traced function sees its inputs only through their entries, and its output shapes through its input shapes *)
Definition traced (f : @fn A) : Prop :=
  (forall xs ys, Forall2 eqa xs ys -> orel (Forall2 eqa) (f xs) (f ys)) /\
  (forall xs xs' ys ys', map (@sh A) xs = map (@sh A) xs' -> f xs = Some ys -> f xs' = Some ys' -> map (@sh A) ys = map (@sh A) ys').

Lemma put_axes_rel oaxes : forall xs ys : list (nd A), Forall2 eqa xs ys -> orel (Forall2 eqa) (put_axes oaxes xs) (put_axes oaxes ys).
Proof.
  intros xs ys H. unfold put_axes. rewrite (Forall2_len H). destruct (Nat.eqb _ _); [|exact I].
  apply seqo_rel. revert oaxes. induction H as [|a b xs ys Hab _ IH]; intros [|ax oaxes]; cbn; constructor; [|apply IH].
  destruct Hab as [Hs Ha]. unfold ndim. rewrite Hs. destruct (axis _ ax) as [d|] eqn:Ed; cbn; [|exact I].
  apply axis_lt in Ed. split; cbn; rewrite Hs; [reflexivity|]. intros i Hi.
  destruct (sh b) as [|n s] eqn:Es; [cbn in Ed; lia|]. cbn [hd tl] in Hi. cbn [length] in Ed.
  destruct (@drop_insn_inb d n i s) as [H1 H2]; [lia|exact Hi|]. apply Ha. rewrite Hs. constructor; auto.
Qed.

(* ---- one example of the chunked arguments is the example of the original arguments --------------------- *)
Definition loop_leaf (rem k m : nat) (d : nat) (a : nd A) : nd A :=
  let x := drop_rows rem (to_front d a) in reshape (k :: m :: tl (sh x)) x.
Lemma loop_leaf_row rem k m d (a : nd A) c j : d < ndim a -> nth d (sh a) 0 = rem + k * m -> c < k -> j < m ->
  eqa (row (row (loop_leaf rem k m d a) c) j) (take d (rem + c * m + j) a).
Proof.
  intros Hd Hn Hc Hj. split; [reflexivity|]. intros p Hp.
  change (inb p (dropn d (sh a))) in Hp.
  change (at_ (reshape (k :: m :: dropn d (sh a)) (drop_rows rem (to_front d a))) (c :: j :: p) = at_ a (insn d (rem + c * m + j) p)).
  rewrite reshape_at. cbn [sh drop_rows to_front hd tl at_].
  assert (Hsz : nth d (sh a) 0 - rem = k * m) by lia. rewrite Hsz.
  assert (E : ravel_ix (k :: m :: dropn d (sh a)) (c :: j :: p) = ravel_ix (k * m :: dropn d (sh a)) ((c * m + j) :: p)).
  { cbn. lia. }
  rewrite E. rewrite unravel_ravel; [cbn; rewrite Nat.add_assoc; reflexivity|]. constructor; [nia|exact Hp].
Qed.
Lemma rem_leaf_row rem d (a : nd A) b : d < ndim a -> eqa (row (take_rows rem (to_front d a)) b) (take d b a).
Proof. intros Hd. split; reflexivity. Qed.

Lemma slice_rel g ds args b : axes_in ds args -> (forall d a, In (Some d, a) (combine ds args) -> d < ndim a -> eqa (g d a) (take d b a)) ->
  Forall2 eqa (map2 (fun o a => match o with None => a | Some d => g d a end) ds args) (slice ds args b).
Proof.
  intros H. unfold slice. induction H as [|[d|] a ds args Ho _ IH]; cbn; intros Hg; constructor;
    try (apply IH; intros; apply Hg; auto; fail); [apply Hg; auto|apply eqa_refl].
Qed.
Lemma pick_In {X} (g : nat -> nd A -> X) ds args d a : In (Some d, a) (combine ds args) -> In (g d a) (pick g ds args).
Proof.
  revert args. induction ds as [|o ds IH]; intros [|b args]; cbn; try tauto. intros [H|H].
  - injection H as -> ->. left. reflexivity.
  - unfold pick in *. cbn. apply in_or_app. right. apply IH. auto.
Qed.
Lemma pick_nil {X Y} (g : nat -> nd A -> X) (h : nat -> nd A -> Y) ds args : pick g ds args = [] -> pick h ds args = [].
Proof.
  revert args. induction ds as [|[d|] ds IH]; intros [|b args]; unfold pick in *; cbn; auto; discriminate.
Qed.

(* ---- the chunks exist exactly when all sizes agree ----------------------------------------------------- *)
Definition nonempty (args : list (nd A)) : Prop := Forall (fun a => prod (sh a) <> 0) args.
Lemma chunks_ok rem k m ds args : axes_in ds args -> nonempty args -> 0 < k * m ->
  seqo (map (fun x => chunk k m (drop_rows rem x)) (pick (@to_front A) ds args))
  = if all_eq (rem + k * m) (sizes ds args) then Some (pick (loop_leaf rem k m) ds args) else None.
Proof.
  intros H Hne Hk. rewrite pick_map, sizes_pick. unfold all_eq.
  revert Hne. induction H as [|[d|] a ds args Ho _ IH]; intros Hne; [reflexivity| |];
    inversion Hne as [|? ? Ha Hne']; subst; specialize (IH Hne'); unfold pick in *; cbn [map2 concat app forallb].
  - rewrite (prod_drop _ Ho) in Ha.
    unfold chunk at 1. cbn [drop_rows to_front sh hd tl prod].
    destruct (Nat.eqb_spec (k * (m * prod (dropn d (sh a)))) ((nth d (sh a) 0 - rem) * prod (dropn d (sh a)))) as [E|E].
    + assert (E' : rem + k * m = nth d (sh a) 0).
      { rewrite Nat.mul_assoc in E. apply Nat.mul_cancel_r in E; [lia|]. intros Hz. rewrite Hz in Ha. lia. }
      rewrite E', Nat.eqb_refl. cbn [andb seqo]. rewrite E' in IH. rewrite IH.
      destruct (forallb _ _); reflexivity.
    + assert (E' : rem + k * m <> nth d (sh a) 0). { intros E'. apply E. rewrite <- E'. replace (rem + k * m - rem) with (k * m) by lia. lia. }
      apply Nat.eqb_neq in E'. rewrite E'. reflexivity.
  - exact IH.
Qed.

(* ---- vmapped_fn on leaves computed from the arguments ------------------------------------------------- *)
Lemma pick_rows (g : nat -> nd A -> nd A) n ds args : (forall d a, In (Some d, a) (combine ds args) -> rows (g d a) = n) ->
  forall x, In x (map (@rows A) (pick g ds args)) -> x = n.
Proof.
  rewrite pick_map. revert args. induction ds as [|[d|] ds IH]; intros [|a args] H x; unfold pick in *; cbn; try tauto.
  - intros [Hx|Hx]; [rewrite <- Hx; apply H; left; reflexivity|]. eapply IH; [|exact Hx]. intros; apply H; right; auto.
  - intros Hx. eapply IH; [|exact Hx]. intros; apply H; right; auto.
Qed.
Lemma vmapped_ok f (g : nat -> nd A -> nd A) n ds args : length ds = length args -> sizes ds args <> [] ->
  (forall d a, In (Some d, a) (combine ds args) -> rows (g d a) = n) ->
  vmapped_fn d0 f (mask_of ds) (mapped (map negb (mask_of ds)) args) (pick g ds args)
  = let* ys := seqo (map (fun b => f (map2 (fun o a => match o with None => a | Some d => row (g d a) b end) ds args)) (seq 0 n)) in
    Some (stack_outs d0 ys).
Proof.
  intros Hl Hs Hr. unfold vmapped_fn. pose proof (@pick_rows g n ds args Hr) as Hp.
  destruct (map (@rows A) (pick g ds args)) as [|B r] eqn:E.
  - exfalso. apply Hs. rewrite sizes_pick. eapply pick_nil with (g := fun d a => rows (g d a)). rewrite <- pick_map. exact E.
  - assert (B = n) as -> by (apply Hp; now left).
    assert (Ha : all_eq n r = true). { apply forallb_forall. intros x Hx. apply Nat.eqb_eq. symmetry. apply Hp. now right. }
    rewrite Ha. f_equal. f_equal. apply map_ext. intros b. rewrite pick_map, merge_pick; auto.
Qed.

(* ---- stacking ------------------------------------------------------------------------------------------- *)
Lemma stack_outs_map L (ys : list (list (nd A))) : length (hd [] ys) = L -> stack_outs d0 ys = map (stack_out d0 ys) (seq 0 L).
Proof. intros <-. reflexivity. Qed.
Lemma nth_stack_outs L ys j : length (hd [] ys) = L -> j < L -> nth j (stack_outs d0 ys) nd_ = stack_out d0 ys j.
Proof.
  intros H Hj. rewrite (stack_outs_map ys H). rewrite nth_indep with (d' := stack_out d0 ys 0) by (rewrite map_length, seq_length; lia).
  rewrite map_nth, seq_nth by lia. reflexivity.
Qed.
Lemma nth_concat_uniform {X} m (ls : list (list X)) d : (forall l, In l ls -> length l = m) -> forall c j, c < length ls -> j < m ->
  nth (c * m + j) (concat ls) d = nth j (nth c ls []) d.
Proof.
  induction ls as [|l ls IH]; cbn [length]; intros H c j Hc Hj; [lia|]. cbn [concat].
  assert (Hl : length l = m) by (apply H; now left).
  destruct c; cbn [nth].
  - rewrite app_nth1 by lia. reflexivity.
  - rewrite app_nth2 by (rewrite Hl; lia). rewrite Hl. replace (S c * m + j - m) with (c * m + j) by lia. apply IH; auto; [|lia].
    intros; apply H; now right.
Qed.
Lemma concat_len {X} m (ls : list (list X)) : (forall l, In l ls -> length l = m) -> length (concat ls) = length ls * m.
Proof.
  induction ls as [|l ls IH]; intros H; [reflexivity|]. cbn. rewrite app_length, IH by (intros; apply H; now right).
  rewrite (H l) by now left. reflexivity.
Qed.
Lemma eqa_map_sh (xs ys : list (nd A)) : Forall2 eqa xs ys -> map (@sh A) xs = map (@sh A) ys.
Proof. induction 1 as [|a b xs ys [H _] _ IH]; cbn; congruence. Qed.
Lemma sh_nth (xs ys : list (nd A)) j : map (@sh A) xs = map (@sh A) ys -> sh (nth j xs nd_) = sh (nth j ys nd_).
Proof. intros H. rewrite <- !(map_nth (@sh A)). rewrite H. reflexivity. Qed.

Lemma assemble m k rem S (Y1 Z1 : list (list (nd A))) (Y2 Z2 : list (list (list (nd A)))) :
  0 < m -> 0 < k ->
  length Y1 = rem -> length Y2 = k -> (forall l, In l Y2 -> length l = m) ->
  (forall y, In y (Y1 ++ concat Y2) -> map (@sh A) y = S) ->
  Forall2 (Forall2 eqa) Z1 Y1 -> Forall2 (Forall2 (Forall2 eqa)) Z2 Y2 ->
  let res := map (@unchunk A) (stack_outs d0 (map (stack_outs d0) Z2)) in
  let rr := stack_outs d0 Z1 in
  (0 < rem -> length rr = length res) /\
  Forall2 eqa (if 0 <? rem then map2 (fun x r => concat0 d0 [r; x]) res rr else res) (stack_outs d0 (Y1 ++ concat Y2)).
Proof.
  intros Hm Hk H1 H2 H2m HS R1 R2 res rr. set (L := length S).
  assert (Hlen : forall y, In y (Y1 ++ concat Y2) -> length y = L).
  { intros y Hy. unfold L. rewrite <- (HS y Hy), map_length. reflexivity. }
  assert (HZ2l : length Z2 = k) by (rewrite (Forall2_len R2); auto).
  assert (HZ1l : length Z1 = rem) by (rewrite (Forall2_len R1); auto).
  assert (HY2 : forall c j, c < k -> j < m -> In (nth j (nth c Y2 []) []) (Y1 ++ concat Y2)).
  { intros c j Hc Hj. apply in_or_app. right. apply in_concat. exists (nth c Y2 []).
    assert (In (nth c Y2 []) Y2) by (apply nth_In; lia). split; [auto|]. apply nth_In. rewrite H2m; auto. }
  assert (HZ2 : forall c, c < k -> length (nth c Z2 []) = m).
  { intros c Hc. rewrite (Forall2_len (Forall2_nth [] [] R2 (i:=c) ltac:(lia))). apply H2m. apply nth_In. lia. }
  assert (HZe : forall c j, c < k -> j < m -> Forall2 eqa (nth j (nth c Z2 []) []) (nth j (nth c Y2 []) [])).
  { intros c j Hc Hj. pose proof (Forall2_nth [] [] R2 (i:=c) ltac:(lia)) as Hc'.
    apply (Forall2_nth [] [] Hc'). rewrite HZ2; auto. }
  assert (HZs : forall c j, c < k -> j < m -> map (@sh A) (nth j (nth c Z2 []) []) = S).
  { intros c j Hc Hj. rewrite (eqa_map_sh (HZe c j Hc Hj)). apply HS. auto. }
  assert (HZL : forall c j, c < k -> j < m -> length (nth j (nth c Z2 []) []) = L).
  { intros c j Hc Hj. unfold L. rewrite <- (HZs c j Hc Hj), map_length. reflexivity. }
  assert (hd_nth : forall X (l : list X) d, hd d l = nth 0 l d) by (intros X [|x l] d; reflexivity).
  assert (HLz : forall c, c < k -> length (hd [] (nth c Z2 [])) = L).
  { intros c Hc. rewrite hd_nth. apply HZL; auto. }
  assert (Hso : forall c, c < k -> nth c (map (stack_outs d0) Z2) [] = stack_outs d0 (nth c Z2 [])).
  { intros c Hc. rewrite nth_indep with (d' := stack_outs d0 []) by (rewrite map_length; lia). rewrite map_nth. reflexivity. }
  assert (HLo : length (hd [] (map (stack_outs d0) Z2)) = L).
  { rewrite hd_nth, Hso by lia. unfold stack_outs. rewrite map_length, seq_length. apply HLz; lia. }
  assert (Hres : res = map (fun j => unchunk (stack_out d0 (map (stack_outs d0) Z2) j)) (seq 0 L)).
  { unfold res. rewrite (stack_outs_map _ HLo), map_map. reflexivity. }
  assert (HLy : length (hd [] (Y1 ++ concat Y2)) = L).
  { rewrite hd_nth. apply Hlen. apply nth_In. rewrite app_length, (@concat_len _ m Y2 H2m), H2. nia. }
  assert (Hsj : forall j y, In y (Y1 ++ concat Y2) -> sh (nth j y nd_) = nth j S []).
  { intros j y Hy. rewrite <- (map_nth (@sh A)), (HS y Hy). reflexivity. }
  (* one leaf of the loop result *)
  assert (Hush : forall j, j < L -> sh (unchunk (stack_out d0 (map (stack_outs d0) Z2) j)) = k * m :: nth j S []).
  { intros j Hj. unfold unchunk. cbn [sh reshape stack_out nth tl].
    rewrite map_length, HZ2l, hd_nth, Hso by lia. rewrite (nth_stack_outs _ (@HLz 0 Hk)) by auto.
    cbn [sh stack_out nth tl]. rewrite HZ2 by lia. f_equal. rewrite hd_nth, <- (map_nth (@sh A)), HZs by lia. reflexivity. }
  assert (Huat : forall j b p, j < L -> b < k * m -> inb p (nth j S []) ->
    at_ (unchunk (stack_out d0 (map (stack_outs d0) Z2) j)) (b :: p) = at_ (nth j (nth b (concat Y2) []) nd_) p).
  { intros j b p Hj Hb Hp. pose proof (Hush j Hj) as Hsh. unfold unchunk in *. rewrite reshape_at. cbn [sh reshape] in Hsh. rewrite Hsh.
    assert (Hso' : sh (stack_out d0 (map (stack_outs d0) Z2) j) = k :: m :: nth j S []).
    { cbn [sh stack_out]. rewrite map_length, HZ2l, hd_nth, Hso by lia. rewrite (nth_stack_outs _ (@HLz 0 Hk)) by auto.
      cbn [sh stack_out]. rewrite HZ2 by lia. rewrite hd_nth, <- (map_nth (@sh A)), HZs by lia. reflexivity. }
    rewrite Hso'. set (c := b / m). set (q := b mod m).
    assert (Hq : q < m) by (apply Nat.mod_upper_bound; lia).
    assert (Hbe : b = c * m + q) by (unfold c, q; rewrite (Nat.div_mod b m) at 1; lia).
    assert (Hc : c < k) by (apply Nat.div_lt_upper_bound; lia).
    assert (E : ravel_ix (k * m :: nth j S []) (b :: p) = ravel_ix (k :: m :: nth j S []) (c :: q :: p)) by (cbn; rewrite Hbe; lia).
    rewrite E, unravel_ravel by (repeat constructor; auto). cbn [at_ stack_out hd tl].
    rewrite Hso by auto. rewrite (nth_stack_outs _ (HLz c Hc)) by auto. cbn [at_ stack_out hd tl].
    rewrite Hbe. rewrite (@nth_concat_uniform _ m Y2) by (auto; lia).
    assert (He : eqa (nth j (nth q (nth c Z2 []) []) nd_) (nth j (nth q (nth c Y2 []) []) nd_)).
    { apply (Forall2_nth _ _ (HZe c q Hc Hq)). rewrite HZL; auto. }
    apply He. rewrite <- (map_nth (@sh A)), HZs by auto. exact Hp. }
  assert (Hysh : forall j, j < L -> sh (stack_out d0 (Y1 ++ concat Y2) j) = rem + k * m :: nth j S []).
  { intros j Hj. cbn [sh stack_out]. rewrite app_length, (@concat_len _ m Y2 H2m), H1, H2. f_equal.
    apply Hsj. rewrite hd_nth. apply nth_In. rewrite app_length, (@concat_len _ m Y2 H2m), H2. nia. }
  assert (HZ1e : forall b, b < rem -> Forall2 eqa (nth b Z1 []) (nth b Y1 [])).
  { intros b Hb. apply (Forall2_nth [] [] R1). lia. }
  assert (HZ1L : forall b, b < rem -> length (nth b Z1 []) = L).
  { intros b Hb. rewrite (Forall2_len (HZ1e b Hb)). apply Hlen. apply in_or_app. left. apply nth_In. lia. }
  assert (Hrr : 0 < rem -> rr = map (stack_out d0 Z1) (seq 0 L)).
  { intros Hr. unfold rr. apply stack_outs_map. rewrite hd_nth. apply HZ1L. auto. }
  split.
  - intros Hr. rewrite (Hrr Hr), Hres, !map_length. reflexivity.
  - rewrite (stack_outs_map _ HLy). destruct (Nat.ltb_spec 0 rem) as [Hr|Hr].
    + rewrite (Hrr Hr), Hres.
      assert (Hm2 : forall X W (f : nat -> X) (g : nat -> W) V (h : X -> W -> V) l, map2 h (map f l) (map g l) = map (fun j => h (f j) (g j)) l).
      { intros X W f g V h l. induction l; cbn; congruence. }
      rewrite Hm2. apply Forall2_map_seq. intros j Hj.
      assert (Hrs : sh (stack_out d0 Z1 j) = rem :: nth j S []).
      { cbn [sh stack_out]. rewrite HZ1l. f_equal. rewrite hd_nth.
        rewrite (proj1 (Forall2_nth nd_ nd_ (HZ1e 0 Hr) (i:=j) ltac:(rewrite HZ1L; auto))). apply Hsj.
        apply in_or_app. left. apply nth_In. lia. }
      assert (Hcs : sh (concat0 d0 [stack_out d0 Z1 j; unchunk (stack_out d0 (map (stack_outs d0) Z2) j)]) = rem + k * m :: nth j S []).
      { unfold concat0. cbn [sh map list_sum fold_right]. unfold rows. rewrite (Hush j Hj). cbn [hd]. rewrite Hrs. cbn. f_equal. lia. }
      assert (Hr1 : rows (stack_out d0 Z1 j) = rem) by (unfold rows; rewrite Hrs; reflexivity).
      assert (Hr2 : rows (unchunk (stack_out d0 (map (stack_outs d0) Z2) j)) = k * m) by (unfold rows; rewrite (Hush j Hj); reflexivity).
      split; [rewrite Hcs, Hysh; auto|]. rewrite Hcs. intros i Hi. destruct i as [|b p]; [inversion Hi|].
      apply inb_cons in Hi. destruct Hi as [Hb Hp]. unfold concat0. cbn [at_ hd tl cat_at].
      rewrite Hr1, Hr2. destruct (Nat.ltb_spec b rem) as [Hbr|Hbr].
      * cbn [at_ stack_out hd tl]. rewrite app_nth1 by lia.
        assert (He := Forall2_nth nd_ nd_ (HZ1e b Hbr) (i:=j) ltac:(rewrite HZ1L; auto)).
        apply He. rewrite (proj1 He). rewrite Hsj; auto. apply in_or_app. left. apply nth_In. lia.
      * destruct (Nat.ltb_spec (b - rem) (k * m)) as [Hb2|Hb2]; [|lia].
        rewrite Huat by auto. cbn [at_ stack_out hd tl]. rewrite app_nth2 by lia. rewrite H1. reflexivity.
    + assert (Y1 = []) as -> by (destruct Y1; [reflexivity|cbn in H1; lia]). cbn in H1. subst rem.
      rewrite Hres. apply Forall2_map_seq. intros j Hj. split.
      * rewrite Hush, Hysh by auto. reflexivity.
      * rewrite (Hush j Hj). intros i Hi. destruct i as [|b p]; [inversion Hi|]. apply inb_cons in Hi. destruct Hi as [Hb Hp].
        rewrite Huat by auto. reflexivity.
Qed.

Lemma eqa_list_refl (xs : list (nd A)) : Forall2 eqa xs xs.
Proof. induction xs; constructor; auto using eqa_refl. Qed.
Lemma orel_refl (x : option (list (nd A))) : orel (Forall2 eqa) x x.
Proof. destruct x; cbn; auto using eqa_list_refl. Qed.
Lemma slice_sh ds args b b' : map (@sh A) (slice ds args b) = map (@sh A) (slice ds args b').
Proof. unfold slice. revert args. induction ds as [|[d|] ds IH]; intros [|a args]; cbn; try reflexivity; f_equal; apply IH. Qed.

Lemma seqo_nth {X} (l : list (option X)) r : seqo l = Some r -> l = map Some r.
Proof.
  revert r. induction l as [|[x|] l IH]; cbn; intros r H; [injection H as <-; reflexivity| |discriminate].
  destruct (seqo l) as [r'|]; cbn in H; [|discriminate]. injection H as <-. cbn. f_equal. auto.
Qed.

Theorem batched_vmap_vmap f m axes oaxes args : traced f -> nonempty args -> 1 <= m ->
  orel (Forall2 eqa) (batched_vmap d0 f m axes oaxes args) (vmap d0 f axes oaxes args).
Proof.
  intros [Fe Fs] Hne Hm. unfold batched_vmap. pose proof (orel_refl (vmap d0 f axes oaxes args)) as Hrefl.
  unfold vmap in *. destruct (in_ax axes args) as [ds|] eqn:Eax; [|exact I]. cbn [bind] in *.
  pose proof (in_ax_ok _ _ Eax) as Hds.
  destruct (sizes ds args) as [|B r] eqn:Es; [exact I|].
  destruct (Nat.leb_spec B m) as [HB|HB]; [exact Hrefl|]. clear Hrefl.
  destruct (Nat.eqb_spec m 0) as [|_]; [lia|].
  set (k := B / m). set (rem := B mod m).
  assert (HBe : B = rem + k * m) by (unfold k, rem; rewrite (Nat.div_mod B m) at 1; lia).
  assert (Hk : 0 < k) by (apply Nat.div_str_pos; lia).
  assert (Hrm : rem < m) by (apply Nat.mod_upper_bound; lia). clearbody k rem.
  fold (@pick (nd A) (@to_front A) ds args). rewrite (@chunks_ok rem k m ds args Hds Hne) by nia. rewrite Es, <- HBe.
  unfold all_eq at 1. cbn [forallb]. rewrite Nat.eqb_refl. cbn [andb]. fold (all_eq B r).
  destruct (all_eq B r) eqn:Ea; [|exact I]. cbn [bind].
  assert (Hal : forall x, In x (sizes ds args) -> x = B).
  { rewrite Es. intros x [<-|Hx]; [reflexivity|]. unfold all_eq in Ea. rewrite forallb_forall in Ea. symmetry. apply Nat.eqb_eq. apply Ea; auto. }
  assert (HsB : forall d a, In (Some d, a) (combine ds args) -> nth d (sh a) 0 = B).
  { intros d a Hin. apply Hal. rewrite sizes_pick. apply (pick_In (fun d a => nth d (sh a) 0) ds args d a Hin). }
  assert (Hll : length ds = length args) by (apply (Forall2_len Hds)).
  assert (Hsn : sizes ds args <> []) by (rewrite Es; discriminate).
  set (ys := fun b => f (slice ds args b)).
  change (map (fun o : option nat => match o with Some _ => true | None => false end) ds) with (mask_of ds).
  (* the loop *)
  set (zc := fun c j => f (map2 (fun o a => match o with None => a | Some d => row (row (loop_leaf rem k m d a) c) j end) ds args)).
  assert (Eloop : scan_chunks d0 (vmapped_fn d0 f (mask_of ds) (mapped (map negb (mask_of ds)) args)) k (pick (loop_leaf rem k m) ds args)
    = let* z := seqo (map (fun c => seqo (map (zc c) (seq 0 m))) (seq 0 k)) in Some (stack_outs d0 (map (stack_outs d0) z))).
  { unfold scan_chunks.
    assert (E : map (fun c => vmapped_fn d0 f (mask_of ds) (mapped (map negb (mask_of ds)) args) (map (fun x => row x c) (pick (loop_leaf rem k m) ds args))) (seq 0 k)
      = map (option_map (stack_outs d0)) (map (fun c => seqo (map (zc c) (seq 0 m))) (seq 0 k))).
    { rewrite map_map. apply map_ext. intros c. rewrite pick_map. rewrite vmapped_ok with (n := m); auto. }
    rewrite E, seqo_map_opt. destruct (seqo _); reflexivity. }
  rewrite Eloop. clear Eloop.
  (* the remainder *)
  set (zr := fun b => f (map2 (fun o a => match o with None => a | Some d => row (take_rows rem (to_front d a)) b end) ds args)).
  rewrite pick_map.
  rewrite (@vmapped_ok f (fun d a => take_rows rem (to_front d a)) rem ds args Hll Hsn)
    by (intros d a Hin; cbn; rewrite (HsB d a Hin); lia).
  fold zr.
  (* vmap, split the same way *)
  unfold vmap_lead. fold ys.
  assert (Eseq : seq 0 B = seq 0 rem ++ concat (map (fun c => seq (rem + c * m) m) (seq 0 k))).
  { rewrite HBe, seq_app, seq_chunks. reflexivity. }
  rewrite Eseq, map_app, seqo_app, concat_map, seqo_concat, !map_map.
  assert (Er : orel (Forall2 (Forall2 eqa)) (seqo (map zr (seq 0 rem))) (seqo (map ys (seq 0 rem)))).
  { apply seqo_rel. apply Forall2_map_seq. intros b Hb. apply Fe. apply slice_rel; auto.
    intros d a _ Hd. apply rem_leaf_row; auto. }
  assert (El : orel (Forall2 (Forall2 (Forall2 eqa))) (seqo (map (fun c => seqo (map (zc c) (seq 0 m))) (seq 0 k)))
                 (seqo (map (fun c => seqo (map ys (seq (rem + c * m) m))) (seq 0 k)))).
  { apply seqo_rel. apply Forall2_map_seq. intros c Hc. apply seqo_rel.
    assert (Esh : map ys (seq (rem + c * m) m) = map (fun j => ys (rem + c * m + j)) (seq 0 m)).
    { clear. generalize (rem + c * m) as a. induction m as [|m' IH]; intros a; [reflexivity|]. rewrite seq_S, (seq_S m' 0), !map_app, IH. reflexivity. }
    rewrite Esh. apply Forall2_map_seq. intros j Hj. apply Fe. apply slice_rel; auto.
    intros d a Hin Hd. apply loop_leaf_row; auto. rewrite <- HBe. apply HsB; auto. }
  destruct (seqo (map (fun c => seqo (map (zc c) (seq 0 m))) (seq 0 k))) as [Z2|] eqn:EZ2;
    destruct (seqo (map (fun c => seqo (map ys (seq (rem + c * m) m))) (seq 0 k))) as [Y2|] eqn:EY2; cbn in El; try tauto;
    cbn [bind option_map].
  2:{ destruct (seqo (map ys (seq 0 rem))); exact I. }
  destruct (seqo (map zr (seq 0 rem))) as [Z1|] eqn:EZ1;
    destruct (seqo (map ys (seq 0 rem))) as [Y1|] eqn:EY1; cbn in Er; try tauto; cbn [bind].
  2:{ destruct (Nat.ltb_spec 0 rem) as [Hr|Hr]; [exact I|]. assert (rem = 0) as E0 by lia. exfalso. rewrite E0 in EY1. discriminate. }
  (* all examples succeeded *)
  pose proof (seqo_nth _ EY1) as NY1. pose proof (seqo_nth _ EY2) as NY2.
  assert (HY1 : length Y1 = rem) by (rewrite (seqo_length _ EY1), map_length, seq_length; reflexivity).
  assert (HY2 : length Y2 = k) by (rewrite (seqo_length _ EY2), map_length, seq_length; reflexivity).
  assert (Hin2 : forall l, In l Y2 -> exists c, seqo (map ys (seq (rem + c * m) m)) = Some l).
  { intros l Hl. apply (in_map Some) in Hl. rewrite <- NY2 in Hl. apply in_map_iff in Hl. destruct Hl as (c & Hc & _). eauto. }
  assert (Hl2 : forall l, In l Y2 -> length l = m).
  { intros l Hl. destruct (Hin2 l Hl) as (c & Hc). rewrite (seqo_length _ Hc), map_length, seq_length. reflexivity. }
  assert (Hany : forall y, In y (Y1 ++ concat Y2) -> exists b, ys b = Some y).
  { intros y Hy. apply in_app_or in Hy. destruct Hy as [Hy|Hy].
    - apply (in_map Some) in Hy. rewrite <- NY1 in Hy. apply in_map_iff in Hy. destruct Hy as (b & Hb & _). eauto.
    - apply in_concat in Hy. destruct Hy as (l & Hl & Hy). destruct (Hin2 l Hl) as (c & Hc). apply (in_map Some) in Hy.
      rewrite <- (seqo_nth _ Hc) in Hy. apply in_map_iff in Hy. destruct Hy as (b & Hb & _). eauto. }
  assert (HS : exists S, forall y, In y (Y1 ++ concat Y2) -> map (@sh A) y = S).
  { destruct (Y1 ++ concat Y2) as [|y0 Y] eqn:EY; [exists []; intros y []|]. exists (map (@sh A) y0). intros y Hy.
    destruct (Hany y Hy) as (b & Hb). destruct (Hany y0 (or_introl eq_refl)) as (b' & Hb').
    eapply Fs; [|exact Hb|exact Hb']. apply slice_sh. }
  destruct HS as (S & HS).
  pose proof (@assemble m k rem S Y1 Z1 Y2 Z2 ltac:(lia) Hk HY1 HY2 Hl2 HS Er El) as [Hlen Hfin]. cbv zeta in Hlen, Hfin.
  destruct (0 <? rem) eqn:Erem; cbn [bind].
  - apply Nat.ltb_lt in Erem. rewrite (Hlen Erem), Nat.eqb_refl. cbn [bind]. apply put_axes_rel. exact Hfin.
  - apply put_axes_rel. exact Hfin.
Qed.
End F.
