(* Scatter.v : model of jvp.py:333-414 sparse_scatter_jvp and of get_jvp_function for functions with the SCATTER flag
   (wrapped_functions.py:400-404: lax.scatter, flags INDEXING | SCATTER), and the theorems of property C39.
   The scatter itself (y = operand with some elements replaced by updates) is an index map [iop] over the argument list
   (operand, indices, updates). *)
From Verif Require Import Check.
Set Implicit Arguments.

Section Scatter.
Context {A : Type} {RA : CRing A}.
Open Scope cr_scope.

(* np.iinfo(np.int32).max, jvp.py:333-414 *)
Definition INT_MAX : Z := 2147483647.
(* jvp.py:370-384: the dependency mask of a segment sum with indices ids of updates of shape [length ids] with index tensor m
   (k rows): column s holds the distinct values of count * input index, INT_MAX entries replaced by -1 *)
Definition scatter_mask (m : nd Z) (k : nat) (ids : list nat) (n : nat) : nd Z :=
  let U := length ids in let S := (maxl ids + 1)%nat in
  let cnt s v := length (filter (fun ur => Nat.eqb (nth (fst ur) ids 0%nat) s && Z.eqb (at_ m [snd ur; fst ur]) (Z.of_nat v))
                                (list_prod (seq 0 U) (seq 0 k))) in
  let deps s := length (filter (fun v => (0 <? cnt s v)%nat) (seq 0 n)) in
  let mo := maxl (map deps (seq 0 S)) in
  let col s := map (fun z => if Z.eqb z INT_MAX then (-1)%Z else z)
                   (uniq_size mo (-1)%Z (map (fun v => if (0 <? cnt s v)%nat then (Z.of_nat (cnt s v) * Z.of_nat v)%Z else INT_MAX) (seq 0 n))) in
  Nd [mo; S] (fun i => nth (nth 0 i 0%nat) (col (nth 1 i 0%nat)) (-1)%Z).
(* jvp.py:333-414 sparse_scatter_jvp for one sparse argument: the operand or the updates; dims_ok: the dimension numbers
   are those of a segment sum; ids: scatter_indices[:, 0] *)
Definition sparse_scatter_jvp (f : op A) (is_operand dims_ok : bool) (ids : list nat) (a : lapl A) (threshold : Z) (fl : flags)
    (in_axes : option (list Z)) : option (result A) :=
  if is_operand then
    if has LINEAR fl then Some (o_fwd f [lx a], ljac a, llap a)               (* l.344-349 *)
    else dense_jvp f [a] fl in_axes                                           (* l.350-354 *)
  else if negb dims_ok then dense_jvp f [a] fl in_axes                        (* l.357-365 *)
  else match jidx (ljac a) with
  | None => None
  | Some m =>
    let* mx := max_n (ljac a) in
    let om := scatter_mask m (rows m) ids (Z.to_nat (mx + 1)) in              (* l.367-382 *)
    if (threshold <? Z.of_nat (rows om))%Z then dense_jvp f [a] fl in_axes
    else
      let oms := Nd [rows om; length ids] (fun i => at_ om [nth 0 i 0%nat; nth (nth 1 i 0%nat) ids 0%nat]) in
      let* im := get_index_mask (ljac a) oms in
      let* gt := materialize_for_idx (ljac a) false im (rows om) in            (* l.389-394; jnp.take gives a jax array, not a static one *)
      let* (g', l') := bexc gt (expand0 (llap a)) in
      let tan := concat0 0 [g'; l'] in
      let yt := vmap_jvp f [lx a] (rows tan) [tan] in
      Some (o_fwd f [lx a], Jac (butlast yt) (Some om), lastrow yt)           (* l.396-413 *)
  end.
(* jvp.py:567-580 for a scatter: the parallel path unless operand and updates both carry derivatives and exactly one is sparse;
   jvp.py:523-565 one_by_one_jvp for that case *)
Definition jvp_scatter (F : fn A) (dims_ok : bool) (ids : list nat) (mg : mergefn) (extra : list (nd A)) (threshold : Z) (fl : flags)
    (in_axes : option (list Z)) (args : list (lapl A)) : option (result A) :=
  if negb (any_weak args) || (all_weak args && (has INDEXING fl || axes_nil in_axes || Nat.eqb (length args) 1))
  then parallel_jvp F mg extra threshold fl in_axes args
  else match args with
  | [o; u] =>
      let f1 := merged (f_op F) (new_merge mg 1 0) 1 (extra ++ [lx u]) in
      let f2 := merged (f_op F) (new_merge mg 1 1) 1 (extra ++ [lx o]) in
      let one f b a := if weak (ljac a) then sparse_scatter_jvp f b dims_ok ids a threshold fl in_axes
                       else dense_jvp f [a] fl in_axes in
      let* r1 := one f1 true o in
      let* r2 := one f2 false u in
      let '(y, g, l) := r1 : result A in let '(_, g', l') := r2 : result A in
      let* g2 := jadd g g' in let* l2 := bin radd l l' in Some (y, g2, l2)
  | _ => None
  end.
End Scatter.

(* When operand and updates are both sparse, both dense, or only one of them carries derivatives, the element at p
   carries exactly the derivatives of the element it was copied from (none if that is a constant). *)
Theorem C39_scatter_partial : forall (A : Type) (RA : CRing A) (n : nat) (F : fn A) (g : iop) (ok filled dims_ok : bool) (ids : list nat)
    (mg : mergefn) (extra : list (nd A)) (threshold : Z) (fl : flags) (args : list (lapl A)) (y : nd A) (J : jac A) (l : nd A),
  (0 < n)%nat -> args <> [] -> merge_ok mg (length args) (length extra) ->
  (forall a, In a args -> awf n a /\ jrow1 (ljac a)) ->
  f_op F = iop_op g -> f_iop F = Some (g, ok, filled) -> iop_wf g (map (@sh A) (mg _ (xs_of args) extra)) ->
  has INDEXING fl = true -> has SUMMATION fl = false -> (f_kwaxes F = None) ->
  (forall a, In a args -> weak (ljac a) = true) \/ (forall a, In a args -> weak (ljac a) = false) ->
  jvp_scatter F dims_ok ids mg extra threshold fl None args = Some (y, J, l) ->
  forall i p, inb p (i_shape g) ->
    let (s, q) := i_src g p in
    (forall a, (a < length args)%nat -> posof mg (length args) (length extra) a = s ->
       at_ y p = at_ (lx (nth a args la0)) q /\
       jent J i p = jent (ljac (nth a args la0)) i q /\ at_ l p = at_ (llap (nth a args la0)) q) /\
    ((forall a, (a < length args)%nat -> posof mg (length args) (length extra) a <> s) -> jent J i p = r0 /\ at_ l p = r0).
Proof.
  intros A RA n F g ok filled dims_ok ids mg extra t fl args y J l Hn Hne Hmg Ha Ef Ei Hwf Hix Hsum Hkw Hw E i p Hp.
  assert (Hc : jvp_scatter F dims_ok ids mg extra t fl None args = parallel_jvp F mg extra t fl None args).
  { unfold jvp_scatter. rewrite Hix. destruct Hw as [Hw|Hw].
    - assert (all_weak args = true) as ->; [|cbn; rewrite orb_true_r; reflexivity]. apply forallb_forall. auto.
    - assert (any_weak args = false) as ->; [|reflexivity]. apply not_true_is_false. intros Hc. apply existsb_exists in Hc.
      destruct Hc as (a & H1 & H2). rewrite Hw in H2; auto. discriminate. }
  rewrite Hc in E. clear Hc.
  assert (Hok : step_ok n (merged (iop_op g) mg (length args) extra) args (y, J, l)).
  { assert (Hawf : forall a, In a args -> awf n a) by (intros; apply Ha; auto).
    unfold parallel_jvp in E. rewrite Ef, Hix, Ei in E. destruct (all_weak args); cbn [negb] in E.
    - eapply sparse_index_sound; eauto. discriminate.
    - eapply dense_jvp_sound; eauto. discriminate. }
  destruct Hok as (Hy & _ & _ & Hj & Hl). cbn in Hj, Hl. specialize (Hj i p Hp). specialize (Hl p Hp).
  unfold dspec in Hj. unfold lspec in Hl.
  assert (Hxl : length (xs_of args) = length args) by (unfold xs_of; apply map_length).
  pose proof (@iop_chain A RA g mg extra (xs_of args) p (fun a q => jent (ljac (nth a args la0)) i q) (length args) Hmg Hxl Hwf Hp) as [C1 C2].
  pose proof (@iop_chain A RA g mg extra (xs_of args) p (fun a q => at_ (llap (nth a args la0)) q) (length args) Hmg Hxl Hwf Hp) as [D1 D2].
  destruct (i_src g p) as [s q] eqn:Es. cbn [fst snd] in *. split.
  - intros a Hl' Hs. split.
    + rewrite Hy. cbn. rewrite Es. rewrite <- Hs.
      destruct (@merge_posof mg (length args) (length extra) (nd A) nd0 (xs_of args) extra a) as [_ Hn']; auto.
      unfold nd0 in Hn'. rewrite Hn'. unfold xs_of. rewrite nth_map_in with (dx := la0) by auto. reflexivity.
    + rewrite Hj, Hl. split; [apply C1|apply D1]; auto.
  - intros Hall. rewrite Hj, Hl. split; [apply C2|apply D2]; auto.
Qed.
Print Assumptions C39_scatter_partial.

(* x.at[1].set(u): operand of shape [2], one update *)
Definition set1 : iop := Iop [2]%nat (fun p => match nth 0 p 0%nat with 0 => (0, [0]) | _ => (2, [0]) end)%nat.
(* example operation: x.at[1].set(u) *)
Definition setF (ok filled : bool) : fn Z := Fn (iop_op set1) None (Some (set1, ok, filled)).
(* example: operand and updates carry derivatives, the indices do not *)
Definition mg_sc : mergefn := fun X => @merge_mask [true; false; true] X.
(* example operand *)
Definition sc_x : lapl Z := sp [2]%nat [3; 4]%Z 1 [0; 1]%Z [1; 1]%Z [0; 0]%Z.
(* example updates (sparse Jacobian) *)
Definition sc_u : lapl Z := sp [1]%nat [9]%Z 2 [0; 1]%Z [5; 6]%Z [8]%Z.
(* example updates (dense Jacobian) *)
Definition sc_ud : lapl Z := de [1]%nat [9]%Z 2 [5; 6]%Z [8]%Z.
(* example indices *)
Definition sc_idx : nd Z := arr [1; 1]%nat [1]%Z.
(* wrapped_functions.py: the flags scatter is registered with, INDEXING | SCATTER *)
Definition SCATTER_FLAGS : flags := Z.lor INDEXING SCATTER.
Example C39_hypotheses_met : merge_ok mg_sc 2 1 /\ (forall a, In a [sc_x; sc_u] -> awf 2 a /\ jrow1 (ljac a)) /\
  iop_wf set1 (map (@sh Z) (mg_sc (xs_of [sc_x; sc_u]) [sc_idx])) /\ has INDEXING SCATTER_FLAGS = true /\
  show (jvp_scatter (setF true false) true [1]%nat mg_sc [sc_idx] 2 SCATTER_FLAGS None [sc_x; sc_u]) =
    Some ([3; 9], Some [0; 0; -1; 1], [1; 5; 0; 6], [0; 8])%Z.
Proof.
  split; [|split; [|split; [|split; [reflexivity|vmr]]]].
  - exists [0; 2; 1]%nat. split; [apply perm_skip, perm_swap|].
    intros X d [|x [|y [|z t]]] [|e [|e2 t2]]; try discriminate. reflexivity.
  - intros a Ha. split; [|apply jrow1b_ok; destruct Ha as [<-|[<-|[]]]; reflexivity]. revert a Ha. apply forall_awf. reflexivity.
  - intros p Hp. destruct p as [|i [|j p]]; inversion Hp; subst; [|inversion H4].
    cbn in H2. destruct i as [|[|i]]; try lia; cbn; split; try lia; repeat constructor.
Qed.
(* sparse operand, dense updates: the overwritten element keeps the operand's derivative on top of the update's *)
Theorem C39_sparse_operand_refuted : exists (args : list (lapl Z)) (r : result Z),
  (forall a, In a args -> awf 2 a /\ jrow1 (ljac a)) /\
  jvp_scatter (setF true false) true [1]%nat mg_sc [sc_idx] 2 SCATTER_FLAGS None args = Some r /\
  (* y[1] = u[0], whose derivative with respect to input 1 is 6 *)
  at_ (fst (fst r)) [1]%nat = at_ (lx (nth 1 args la0)) [0]%nat /\
  jent (ljac (nth 1 args la0)) 1 [0]%nat = 6%Z /\ jent (snd (fst r)) 1 [1]%nat = 7%Z.
Proof.
  exists [sc_x; sc_ud]. eexists (got _). split; [|split; [apply got_ok; vmr|split; [vmr|split; vmr]]].
  intros a Ha. split; [|apply jrow1b_ok; destruct Ha as [<-|[<-|[]]]; reflexivity]. revert a Ha. apply forall_awf. reflexivity.
Qed.
Print Assumptions C39_sparse_operand_refuted.
(* dense operand, sparse updates storing input 1 twice: its index is multiplied by the count 2 and the derivative is lost *)
Theorem C39_sparse_updates_refuted : exists (args : list (lapl Z)) (r : result Z),
  (forall a, In a args -> awf 3 a /\ jrow1 (ljac a)) /\
  jvp_scatter (setF true false) true [1]%nat mg_sc [sc_idx] 3 SCATTER_FLAGS None args = Some r /\
  at_ (fst (fst r)) [1]%nat = at_ (lx (nth 1 args la0)) [0]%nat /\
  jent (ljac (nth 1 args la0)) 1 [0]%nat = 11%Z /\ jent (snd (fst r)) 1 [1]%nat = 0%Z.
Proof.
  exists [de [2]%nat [3; 4]%Z 2 [1; 0; 0; 1]%Z [0; 0]%Z; sp [1]%nat [9]%Z 2 [1; 1]%Z [5; 6]%Z [8]%Z].
  eexists (got _). split; [|split; [apply got_ok; vmr|split; [vmr|split; vmr]]].
  intros a Ha. split; [|apply jrow1b_ok; destruct Ha as [<-|[<-|[]]]; reflexivity]. revert a Ha. apply forall_awf. reflexivity.
Qed.
Print Assumptions C39_sparse_updates_refuted.
