(* DenseRows.v : in dense mode every Jacobian keeps one row per input coordinate. *)
From Verif Require Export InterpScan.
Set Implicit Arguments.
Open Scope nat_scope.
Section DR.
Context {A : Type} {RA : CRing A}.
Open Scope cr_scope.
Definition full (n : nat) (a : lapl A) : Prop := weak (ljac a) = false /\ sh (jdata (ljac a)) = n :: sh (lx a).
Definition dfull (n : nat) (v : arg A) : Prop := match v with AL a => weak (ljac a) = false /\ rows (jdata (ljac a)) = n | AX _ => True end.
Lemma dfull_dense n v : dfull n v -> dense_arg v.
Proof. destruct v as [a|x]; cbn; tauto. Qed.
Lemma dfull_full n a : awf n a -> dfull n (AL a) -> full n a.
Proof. intros [(k & E & _) _] [H1 H2]. split; [exact H1|]. cbn in H2. rewrite E in *. unfold rows in H2. rewrite E in H2. cbn in H2. subst k. reflexivity. Qed.
Lemma full_dense n a : full n a -> dense_array (ljac a) = Some (jdata (ljac a)).
Proof. intros [H _]. unfold weak in H. unfold dense_array. destruct (jidx (ljac a)); [discriminate|reflexivity]. Qed.
Lemma full_jacs n args : (forall a, In a args -> full n a) -> dense_jacobian args = Some (map (fun a => jdata (ljac a)) args).
Proof.
  unfold dense_jacobian. induction args as [|a l IH]; intros H; cbn [map sequence]; [reflexivity|]. rewrite (@full_dense n a (H a (or_introl eq_refl))). cbn [bind]. rewrite IH by (intros b Hb; apply H; right; exact Hb). reflexivity.
Qed.
Lemma maxl_all (l : list nat) n : l <> [] -> (forall x, In x l -> x = n) -> maxl l = n.
Proof.
  induction l as [|x l IH]; [congruence|]. intros _ H. cbn [maxl fold_right]. fold (maxl l). rewrite (H x (or_introl eq_refl)). destruct l as [|y l']; [cbn; lia|]. rewrite IH; [lia|discriminate|]. intros z Hz. apply H. right. exact Hz.
Qed.
Lemma extend_full n (l : list (nd A)) : l <> [] -> (forall x, In x l -> rows x = n) -> extend_jacobians l = l.
Proof.
  intros Hne H. destruct l as [|x [|y l]]; [congruence|reflexivity|]. unfold extend_jacobians. set (L := x :: y :: l) in *. rewrite (@maxl_all (map rows L) n).
  - destruct (forallb _ L) eqn:E; [reflexivity|]. exfalso. rewrite <- not_true_iff_false in E. apply E. apply forallb_forall. intros z Hz. apply Nat.eqb_eq. apply H, Hz.
  - discriminate.
  - intros z Hz. apply in_map_iff in Hz. destruct Hz as (w & <- & Hw). apply H, Hw.
Qed.
Lemma full_rows n (a : lapl A) : full n a -> rows (jdata (ljac a)) = n.
Proof. intros [_ E]. unfold rows. rewrite E. reflexivity. Qed.
Lemma split_rows n f args r : args <> [] -> (forall a, In a args -> full n a) -> dense_split_jvp f args = Some r -> rows (snd (fst r)) = n.
Proof.
  intros Hne H E. unfold dense_split_jvp in E. rewrite (@full_jacs n args H) in E. cbn [bind] in E.
  rewrite (@extend_full n) in E.
  - injection E as <-. cbn [fst snd]. unfold vmap_jvp, stack, rows at 1. cbn [sh hd]. apply maxl_all; [destruct args; [congruence|discriminate]|]. intros x Hx. apply in_map_iff in Hx. destruct Hx as (w & <- & Hw). apply in_map_iff in Hw. destruct Hw as (a & <- & Ha). apply (@full_rows n), H, Ha.
  - destruct args; [congruence|discriminate].
  - intros x Hx. apply in_map_iff in Hx. destruct Hx as (a & <- & Ha). apply (@full_rows n), H, Ha.
Qed.
Lemma joint_rows n f args r : args <> [] -> (forall a, In a args -> full n a) -> (forall a, In a args -> awf n a) -> dense_joint_jvp f args = Some r -> rows (snd (fst r)) = n.
Proof.
  intros Hne H HW E. unfold dense_joint_jvp in E. rewrite (@full_jacs n args H) in E. cbn [bind] in E.
  rewrite (@extend_full n) in E.
  - injection E as <-. cbn [fst snd]. unfold butlast, rows at 1. cbn [sh hd]. unfold vmap_jvp, stack, rows at 1. cbn [sh hd].
    rewrite (@maxl_all _ (n + 1)); [lia|destruct args; [congruence|discriminate]|].
    intros x Hx. apply in_map_iff in Hx. destruct Hx as (w & <- & Hw). clear Hne. revert Hw. induction args as [|a l IH]; cbn [map map2 laps_of]; [intros []|]. intros [<-|Hw].
    + destruct (H a (or_introl eq_refl)) as [_ E1]. destruct (HW a (or_introl eq_refl)) as [_ E2]. assert (E3 : sh (expand0 (llap a)) = 1%nat :: sh (lx a)) by (cbn; rewrite E2; reflexivity). unfold rows. rewrite (concat2_sh _ _ _ E1 E3). reflexivity.
    + apply IH; auto; intros b Hb; [apply H|apply HW]; right; exact Hb.
  - destruct args; [congruence|discriminate].
  - intros x Hx. apply in_map_iff in Hx. destruct Hx as (a & <- & Ha). apply (@full_rows n), H, Ha.
Qed.
Lemma elem_rows n f a r : full n a -> dense_elementwise_jvp f a = Some r -> rows (snd (fst r)) = n.
Proof.
  intros H E. unfold dense_elementwise_jvp in E. destruct (sheq _ _) eqn:Es; cbn [negb] in E.
  - rewrite (@full_dense n _ H) in E. cbn [bind] in E. set (j := vjp1 f (lx a) (ones_like (o_fwd f [lx a]))) in *.
    destruct (@bin_row_mul _ _ j (jdata (ljac a)) n (sh (lx a)) eq_refl (proj2 H)) as (g & Eg & Sg & _). rewrite Eg in E. cbn [bind] in E. destruct (bin rmul j (llap a)); [|discriminate]. cbn [bind] in E. injection E as <-. cbn [fst snd]. unfold rows. rewrite Sg. reflexivity.
  - apply (@split_rows n f [a]); auto; [discriminate|]. intros b [<-|[]]. exact H.
Qed.
Lemma dense_jvp_rows n f args fl ax r : args <> [] -> (forall a, In a args -> full n a) -> (forall a, In a args -> awf n a) -> dense_jvp f args fl ax = Some r -> rows (jdata (snd (fst r))) = n.
Proof.
  intros Hne H HW E. unfold dense_jvp in E. assert (HX : exists r', r = (fst (fst r'), Jac (snd (fst r')) None, snd r') /\ rows (snd (fst r')) = n).
  { match type of E with bind ?x _ = _ => destruct x as [[[y g] l]|] eqn:Ex; [|discriminate] end. cbn [bind] in E. injection E as <-. exists (y, g, l). split; [reflexivity|].
    destruct args as [|a [|b l']]; [congruence| |].
    - destruct (axes_nil ax); [apply (@elem_rows n f a _ (H a (or_introl eq_refl)) Ex)|]. destruct (has JOIN_JVP fl); [apply (@joint_rows n f [a] _ Hne H HW Ex)|apply (@split_rows n f [a] _ Hne H Ex)].
    - destruct (has JOIN_JVP fl); [apply (@joint_rows n f _ _ Hne H HW Ex)|apply (@split_rows n f _ _ Hne H Ex)]. }
  destruct HX as (r' & -> & HX). exact HX.
Qed.
Lemma jvp_fn_rows n (F : fn A) (mg : mergefn) extra th fl axes (args : list (lapl A)) r : args <> [] -> (forall a, In a args -> full n a) -> (forall a, In a args -> awf n a) ->
  jvp_fn F mg extra th fl axes args = Some r -> rows (jdata (snd (fst r))) = n.
Proof.
  intros Hne H HW E. assert (Hw : any_weak args = false).
  { unfold any_weak. destruct (existsb _ args) eqn:Ee; [|reflexivity]. apply existsb_exists in Ee. destruct Ee as (a & Ha & Hx). destruct (H a Ha) as [H1 _]. congruence. }
  unfold jvp_fn in E. rewrite Hw in E. cbn [negb orb] in E. unfold parallel_jvp in E.
  assert (Ha : all_weak args = false).
  { destruct args as [|a l]; [congruence|]. unfold all_weak. cbn [forallb]. rewrite (proj1 (H a (or_introl eq_refl))). reflexivity. }
  rewrite Ha in E. cbn [negb] in E. apply (@dense_jvp_rows n _ args fl axes r Hne H HW E).
Qed.
Lemma wrap_full n (R : rule A) c th xs v : (forall a, In (AL a) xs -> awf n a) -> Forall (dfull n) xs -> wrap_fl R c th xs = Some v -> dfull n v.
Proof.
  intros HW Hd H. pose proof (@wrap_dense _ _ R c th xs v) as HD. assert (Hdd : Forall (@dense_arg A) xs) by (revert Hd; apply Forall_impl; intros u; apply dfull_dense).
  specialize (HD Hdd H). unfold wrap_fl in H.
  destruct (sequence _) as [axs|]; [|discriminate]. cbn [bind] in H. destruct (sequence _) as [eaxs|]; [|discriminate]. cbn [bind] in H.
  destruct (als xs) as [|a l] eqn:Ea; [injection H as <-; exact I|].
  destruct (jvp_fn _ _ _ _ _ _ _) as [[[y g] lp]|] eqn:E1; [|discriminate]. cbn [bind] in H. destruct (jhj_trace _ _ _ _ _ _ _ _ _ _) as [h|]; [|discriminate]. cbn [bind] in H.
  destruct (bin radd lp h) as [l2|]; [|discriminate]. cbn [bind] in H.
  assert (HA : forall b, In b (a :: l) -> awf n b /\ full n b).
  { intros b Hb. rewrite <- Ea in Hb. apply In_als in Hb. split; [apply HW, Hb|]. apply dfull_full; [apply HW, Hb|]. rewrite Forall_forall in Hd. apply Hd, Hb. }
  assert (Hg : rows (jdata g) = n) by (apply (@jvp_fn_rows n _ _ _ _ _ _ (a :: l) _ ltac:(discriminate) (fun b Hb => proj2 (HA b Hb)) (fun b Hb => proj1 (HA b Hb)) E1)).
  destruct (r_float R); injection H as <-; [split; [exact HD|exact Hg]|exact I].
Qed.
Lemma default_full n c2r fs th xs ys : (forall a, In (AL a) xs -> awf n a) -> Forall (dfull n) xs -> default_rule c2r fs th xs = Some ys -> Forall (dfull n) ys.
Proof.
  intros HW Hd. unfold default_rule. revert ys. induction fs as [|f fs IH]; intros ys H; cbn in H; [injection H as <-; constructor|].
  destruct (wrap_fl _ c2r th xs) as [v|] eqn:Ev; [|discriminate]. destruct (sequence _) as [vs|]; [|discriminate]. cbn in H. injection H as <-. constructor; [apply (@wrap_full n _ _ _ _ _ HW Hd Ev)|apply IH; reflexivity].
Qed.
End DR.
