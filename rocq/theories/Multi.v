(* Multi.v : functions whose results are lists of arrays (custom_jvp calls, unregistered primitives with several results):
   when the default rule returns, and that flattening the results (hessian.py:73-105) does not mix them. *)
From Verif Require Export RedRows Interp InterpScan TotalCalc SparseRules.
Set Implicit Arguments.

Section Multi.
Context {A : Type} {RA : CRing A}.
Open Scope cr_scope.
(* specification (no /repo code): l lists the inputs that the index tensor m stores *)
Definition stored (m : nd Z) (l : list Z) : Prop := NoDup l /\ forall z, In z l <-> (0 <= z)%Z /\ exists q, inb q (sh m) /\ at_ m q = z.
Lemma maxl_one x : maxl [x] = x. Proof. cbn. lia. Qed.
Lemma full_keep n : keep_pos n (seq 0 n) = [].
Proof. destruct (keep_pos n (seq 0 n)) as [|d l] eqn:E; [reflexivity|]. exfalso. assert (H : In d (keep_pos n (seq 0 n))) by (rewrite E; left; reflexivity). apply keep_pos_In in H. destruct H as [H1 H2]. apply H2. apply in_seq. lia. Qed.
Lemma norm_full n : norm_axes n (map Z.of_nat (seq 0 n)) = seq 0 n.
Proof.
  unfold norm_axes. rewrite map_map. rewrite <- (map_id (seq 0 n)) at 2. apply map_ext_in. intros d Hd. destruct (Z.ltb_spec (Z.of_nat d) 0); [lia|]. apply Nat2Z.id.
Qed.
Lemma full_red n (a : lapl A) m : SparseTotal.good n a -> jidx (ljac a) = Some m ->
  exists gt om l, get_jacobian_for_reduction (ljac a) (norm_axes (ndim (jdata (ljac a)) - 1) (map Z.of_nat (seq 0 (ndim (lx a))))) = Some (gt, om) /\ stored m l /\ rows om = length l.
Proof.
  intros (W & F & (p & Hp)) Em. pose proof W as (WJ & _). destruct (jwf_sparse WJ Em) as (Hd & Hm & Hran).
  assert (EN : (ndim (jdata (ljac a)) - 1)%nat = ndim (lx a)) by (unfold ndim; rewrite Hd; cbn; lia). rewrite EN, norm_full.
  assert (ND : NoDup (seq 0 (ndim (lx a)))) by apply seq_NoDup. assert (HL : forall d, In d (seq 0 (ndim (lx a))) -> (d < length (sh (lx a)))%nat) by (intros d Hx; apply in_seq in Hx; unfold ndim in Hx; lia).
  assert (HS : exists r q, (r < rows m)%nat /\ inb q (sh (lx a)) /\ (0 <= at_ m (r :: q))%Z).
  { unfold jfull in F. rewrite Em, Hm in F. destruct (F p Hp) as (r & Hr & Hz). exists r, p. split; [rewrite (rows_cons _ Hm) in Hr |- *; exact Hr|]. auto. }
  destruct (@reduction_returns A RA (ljac a) m n (sh (lx a)) _ WJ Em ND HL HS) as (gt & om & E). destruct (@red_rows A RA (ljac a) m n (sh (lx a)) _ WJ Em ND HL gt om E) as (per & E1 & E2 & E3). cbv zeta in *.
  unfold ndim in E1, E3. rewrite full_keep in E1, E3. cbn [permute map prod seq] in E1. rewrite maxl_one in E1. exists gt, om, (per 0%nat). split; [exact E|]. split; [|exact E1]. split; [apply E2|].
  intros z. pose proof (E3 [] z (Forall2_nil _)) as E4. cbn [permute map ravel_ix] in E4. rewrite E4. split.
  - intros (Hz & r & q & Hr & Hq & _ & E5). pose proof (Hran r q Hr Hq) as HB. split; [lia|]. exists (r :: q). rewrite Hm. split; [constructor; auto|exact E5].
  - intros (Hz & q & Hq & E5). rewrite Hm in Hq. inversion Hq as [|r ? q' ? Hr Hq' E6]; subst. split; [lia|]. exists r, q'. auto.
Qed.
Lemma stored_len m l l' : stored m l -> stored m l' -> length l = length l'.
Proof.
  intros [N1 H1] [N2 H2]. apply Nat.le_antisymm; apply NoDup_incl_length; auto; intros z Hz; [apply H2, H1|apply H1, H2]; exact Hz.
Qed.
Lemma any_dense (args : list (arg A)) : any_weak (als args) = false -> Forall (@dense_arg A) args.
Proof.
  induction args as [|[a|x] l IH]; intros H; constructor; cbn; auto. { unfold any_weak in H. cbn [als flat_map app existsb] in H. apply orb_false_iff in H. apply H. }
  apply IH. unfold any_weak in *. cbn [als flat_map app existsb] in H. apply orb_false_iff in H. apply H.
Qed.
Theorem list_iff n fs c2r th args : (0 < n)%nat -> als args <> [] -> (forall v, In v args -> goodv n v) ->
  (forall f, In f fs -> ne (sh (o_fwd f (map (@aval A) args))) /\ op_ext f (map (@aval A) args)) ->
  (exists rs, list_rule c2r fs th args = Some rs) <->
  (forall a, In a (als args) -> weak (ljac a) = false) \/
  exists a m l, als args = [a] /\ jidx (ljac a) = Some m /\ sh (lx a) <> [] /\ stored m l /\ (th < Z.of_nat (length l))%Z.
Proof.
  intros Hn Hne HG HF.
  assert (EW : any_weak (als args) = false <-> forall a, In a (als args) -> weak (ljac a) = false).
  { unfold any_weak. split.
    - intros H a Ha. destruct (weak (ljac a)) eqn:E; [|reflexivity]. rewrite (proj2 (existsb_exists _ _)) in H; [discriminate|eauto].
    - intros H. destruct (existsb _ _) eqn:E; [|reflexivity]. apply existsb_exists in E. destruct E as (a & Ha & Hw). rewrite (H a Ha) in Hw. discriminate. }
  unfold list_rule. split.
  - intros (rs & H). destruct (list_returns th (als args)) eqn:E; [|discriminate]. unfold list_returns in E. apply orb_true_iff in E. destruct E as [E|E]; [left; apply EW; apply negb_true_iff; exact E|].
    destruct (als args) as [|a [|? ?]] eqn:Ea; try discriminate. apply andb_true_iff in E. destruct E as [E1 E2]. destruct (jidx (ljac a)) as [m|] eqn:Em.
    + right. assert (Ga : SparseTotal.good n a) by (apply (@good_als A RA n args HG); rewrite Ea; left; reflexivity). destruct (@full_red n a m Ga Em) as (gt & om & l & E3 & E4 & E5). rewrite E3 in E2. exists a, m, l.
      split; [reflexivity|]. split; [exact Em|]. split; [intros E6; unfold ndim in E1; rewrite E6 in E1; discriminate|]. split; [exact E4|]. rewrite <- E5. apply Z.ltb_lt. exact E2.
    + left. intros b [<-|[]]. unfold weak. rewrite Em. reflexivity.
  - intros H. assert (EL : list_returns th (als args) = true).
    { unfold list_returns. destruct H as [H|(a & m & l & Ea & Em & Hs & Hl & Ht)]; [apply EW in H; rewrite H; reflexivity|]. rewrite Ea. apply orb_true_iff. right. apply andb_true_iff. split; [unfold ndim; destruct (sh (lx a)); [congruence|reflexivity]|].
      assert (Ga : SparseTotal.good n a) by (apply (@good_als A RA n args HG); rewrite Ea; left; reflexivity). destruct (@full_red n a m Ga Em) as (gt & om & l' & E3 & E4 & E5). rewrite E3. apply Z.ltb_lt. rewrite E5, (stored_len E4 Hl). exact Ht. }
    rewrite EL. unfold default_rule. apply sequence_total. intros o Ho. apply in_map_iff in Ho. destruct Ho as (f & <- & Hf). destruct (HF f Hf) as [NE HE].
    destruct H as [H|(a & m & l & Ea & _)].
    + apply (@general_fn_total A RA n f c2r th args Hn (fun v Hv => @good_vok A RA n v (HG v Hv)) (any_dense _ (proj2 EW H)) HE).
    + destruct (@general_fn_good A RA n f c2r th args Hn Hne ltac:(rewrite Ea; reflexivity) HG NE HE) as (r & E & _). eauto.
Qed.

(* ---- flattening the results ---- *)
(* specification (no /repo code): a function without results *)
Definition op0 : op A := Op (fun _ => nd0) (fun _ _ _ _ => 0) (fun _ _ _ _ _ _ => 0).
(* jfu.ravel_pytree(fn(...))[0] of a list of results, as a function (utils.py:89-101 flat_wrap, hessian.py:80): element d of the flat vector is element c of result j *)
Definition cat_op (fs : list (op A)) : op A :=
  let at_d xs (p : ix) := unflat (map (fun f => sh (o_fwd f xs)) fs) (hd 0%nat p) in
  Op (fun xs => Nd [flat_size (map (fun f => sh (o_fwd f xs)) fs)] (fun p => let (j, c) := at_d xs p in at_ (o_fwd (nth j fs op0) xs) c))
     (fun xs p a q => let (j, c) := at_d xs p in o_d (nth j fs op0) xs c a q)
     (fun xs p a q b r => let (j, c) := at_d xs p in o_h (nth j fs op0) xs c a q b r).
(* the unravel of jfu.ravel_pytree (hessian.py:80, 105): result j of a list with the shapes ss *)
Definition piece (ss : list shape) (j : nat) (x : nd A) : nd A := Nd (nth j ss []) (fun c => at_ x [(flat_size (firstn j ss) + ravel_ix (nth j ss []) c)%nat]).
Lemma unflat_at : forall ss j c, (j < length ss)%nat -> inb c (nth j ss []) -> unflat ss (flat_size (firstn j ss) + ravel_ix (nth j ss []) c) = (j, c).
Proof.
  induction ss as [|s ss IH]; intros j c Hj Hc; [cbn in Hj; lia|]. destruct j as [|j].
  - cbn [firstn nth] in *. change (flat_size []) with 0%nat. cbn [unflat Nat.add]. pose proof (ravel_lt Hc) as HL. destruct (Nat.ltb_spec (ravel_ix s c) (prod s)); [|lia]. rewrite unravel_ravel by exact Hc. reflexivity.
  - cbn [firstn nth length] in *. change (flat_size (s :: firstn j ss)) with (prod s + flat_size (firstn j ss))%nat. cbn [unflat].
    destruct (Nat.ltb_spec (prod s + flat_size (firstn j ss) + ravel_ix (nth j ss []) c) (prod s)); [lia|].
    replace (prod s + flat_size (firstn j ss) + ravel_ix (nth j ss []) c - prod s)%nat with (flat_size (firstn j ss) + ravel_ix (nth j ss []) c)%nat by lia. rewrite IH by (auto; lia). reflexivity.
Qed.
Theorem flat_results fs c2r (args : list (lapl A)) idx h j : general_jhj (cat_op fs) c2r args idx = Some h -> (j < length fs)%nat ->
  let ss := map (fun f => sh (o_fwd f (xs_of args))) fs in
  exists hj, general_jhj (nth j fs op0) c2r args idx = Some hj /\ sh hj = nth j ss [] /\ forall c, inb c (sh hj) -> at_ (piece ss j h) c = at_ hj c.
Proof.
  intros H Hj ss. unfold general_jhj in *. destruct (get_reduced_jacobians _ _) as [g2|]; [|discriminate]. cbn [bind] in *. injection H as <-. eexists. split; [reflexivity|].
  assert (Es : nth j ss [] = sh (o_fwd (nth j fs op0) (xs_of args))).
  { unfold ss. rewrite (nth_indep _ [] ((fun f => sh (o_fwd f (xs_of args))) op0)) by (rewrite map_length; exact Hj). apply (map_nth (fun f => sh (o_fwd f (xs_of args)))). }
  split; [symmetry; exact Es|]. intros c Hc. cbn [sh] in Hc. assert (Hc' : inb c (nth j ss [])) by (rewrite Es; exact Hc). unfold piece. cbn [at_]. set (d := (flat_size (firstn j ss) + ravel_ix (nth j ss []) c)%nat).
  assert (EU : unflat ss d = (j, c)) by (apply unflat_at; [unfold ss; rewrite map_length; exact Hj|exact Hc']).
  assert (EH : forall a b, flat_hess (cat_op fs) (xs_of args) [d] a b = flat_hess (nth j fs op0) (xs_of args) c a b).
  { intros a b. unfold flat_hess. destruct (unflat _ a) as [a1 q1]. destruct (unflat _ b) as [b1 q2]. cbn [cat_op o_h hd]. fold ss. rewrite EU. reflexivity. }
  destruct (_ <? _)%nat; [destruct c2r|].
  - unfold JHJ_via_hvp. apply sumn_ext. intros x Hx. apply sumn_ext. intros y Hy. f_equal. apply sumn_ext. intros e He. rewrite EH. reflexivity.
  - unfold JHJ_via_hessian. apply sumn_ext. intros x Hx. apply sumn_ext. intros y Hy. rewrite EH. reflexivity.
  - unfold JHJ_via_trace. cbv zeta. apply sumn_ext. intros r Hr. apply sumn_ext. intros e He. f_equal. apply sumn_ext. intros y Hy. rewrite EH. reflexivity.
Qed.
End Multi.
