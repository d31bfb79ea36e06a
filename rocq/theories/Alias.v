(* Alias.v : object identity in get_jacobian_hessian_jacobian_trace (hessian.py:374-407).  The test "tree_leaves(merge(args.x, extra))[0] is args.x[0]"
   (hessian.py:390) compares array OBJECTS.  Hessian.v assumes that distinct arguments are distinct objects; here every argument carries the identity of
   its array object (id(v), or id(v.x) for a FwdLaplArray), the test is modelled literally, and the assumption is discharged or refuted. *)
From Verif Require Export Rules.
Set Implicit Arguments.

Section Alias.
Context {A : Type} {RA : CRing A}.
Open Scope cr_scope.

(* hessian.py:374-407 with the identity test of l.388-391 on object identities: [ids], [eids] are the identities of args.x and of extra_args *)
Definition jhj_trace_obj (f : op A) (c2r : bool) (fl : flags) (custom : option (custom_rule A)) (extra : list (nd A)) (axs eaxs : list (list nat)) (mg : mergefn)
    (threshold : Z) (args : list (lapl A)) (ids eids : list nat) : option (nd A) :=
  if has LINEAR fl then Some nd0
  else if has LINEAR_IN_ONE fl && Nat.eqb (length args) 1 then Some nd0
  else if has LINEAR_IN_FIRST fl && (match mg nat ids eids, ids with i :: _, j :: _ => Nat.eqb i j | _, _ => false end) && Nat.eqb (length args) 1 then Some nd0
  else vmapped_jhj f c2r fl custom extra axs eaxs mg threshold args.
(* utils.py:264-297 split_args on the identities: those of the derivative-carrying leaves and those of the others *)
Definition ids_of (b : bool) (objs : list (nat * arg A)) : list nat := map fst (filter (fun o => Bool.eqb b (is_al (snd o))) objs).
(* wrapper.py:73-138 wrap_forward_laplacian as in Wrap.v, on arguments with identities *)
Definition wrap_fl_obj (R : rule A) (complex_to_real : bool) (threshold : Z) (objs : list (nat * arg A)) : option (arg A) :=
  let args := map snd objs in
  let la := als args in let ex := exs args in let mg := merge_of (mask_of args) in
  let* axs := sequence (map (fun a => canon_axes (ndim (lx a)) (r_axes R)) la) in
  let* eaxs := sequence (map (fun x => canon_axes (ndim x) (r_axes R)) ex) in
  match la with
  | [] => Some (AX (o_fwd (f_op (r_fn R)) (mg _ [] ex)))
  | _ =>
    let* t := jvp_fn (r_fn R) mg ex threshold (r_fl R) (r_axes R) la in
    let '(y, g, l) := t in
    let* h := jhj_trace_obj (f_op (r_fn R)) complex_to_real (r_fl R) (r_custom R) ex axs eaxs mg threshold la (ids_of true objs) (ids_of false objs) in
    let* l2 := bin radd l h in
    Some (if r_float R then AL (Lapl y g l2) else AX y)
  end.

(* the first argument is a plain array that is the very object stored in the only derivative-carrying argument *)
Definition aliased (objs : list (nat * arg A)) : Prop :=
  exists i x rest a, objs = (i, AX x) :: rest /\ In (i, AL a) rest /\ als (map snd objs) = [a].

Lemma als_none (l : list (arg A)) v : als l = [] -> In v l -> is_al v = false.
Proof. intros H Hin. destruct v as [a|x]; auto. apply In_als in Hin. rewrite H in Hin. destruct Hin. Qed.
Lemma ids_one objs a : als (map snd objs) = [a] -> exists i, ids_of true objs = [i] /\ In (i, AL a) objs.
Proof.
  induction objs as [|[i v] l IH]; [discriminate|]. destruct v as [b|x].
  - cbn [map snd als flat_map app]. intros H. injection H as Eb Hl. subst b. exists i. split; [|left; reflexivity].
    assert (E : filter (fun o => Bool.eqb true (is_al (snd o))) l = []).
    { destruct (filter _ l) as [|o q] eqn:E; auto. assert (Hin : In o (filter (fun o => Bool.eqb true (is_al (snd o))) l)) by (rewrite E; left; reflexivity).
      apply filter_In in Hin. destruct Hin as [Hin Ho]. pose proof (@als_none (map snd l) (snd o) Hl (in_map snd _ _ Hin)) as K. rewrite K in Ho. discriminate. }
    change (ids_of true ((i, AL a) :: l)) with (i :: map fst (filter (fun o : nat * arg A => Bool.eqb true (is_al (snd o))) l)). rewrite E. reflexivity.
  - cbn. intros H. destruct (IH H) as (j & E & Hin). exists j. split; auto.
Qed.
Lemma merged_ids objs : merge_of (mask_of (map snd objs)) (ids_of true objs) (ids_of false objs) = map fst objs.
Proof. unfold merge_of, ids_of. induction objs as [|[i [a|x]] l IH]; cbn; auto; f_equal; exact IH. Qed.
Lemma pos_seq k n : (k < n)%nat -> forall a, pos (a + k) (seq a n) = k.
Proof.
  intros H. revert k H. induction n as [|n IH]; intros k H a; [lia|]. cbn. destruct k.
  - rewrite Nat.add_0_r, Nat.eqb_refl. reflexivity.
  - destruct (Nat.eqb_spec a (a + S k)); [lia|]. f_equal. replace (a + S k)%nat with (S a + k)%nat by lia. apply IH. lia.
Qed.

Theorem obj_same R c2r th objs : ~ (has LINEAR_IN_FIRST (r_fl R) = true /\ aliased objs) -> wrap_fl_obj R c2r th objs = wrap_fl R c2r th (map snd objs).
Proof.
  intros HN. unfold wrap_fl_obj, wrap_fl. destruct (sequence (map (fun a => canon_axes (ndim (lx a)) (r_axes R)) _)) as [axs|]; [|reflexivity]. cbn [bind].
  destruct (sequence _) as [eaxs|]; [|reflexivity]. cbn [bind]. destruct (als (map snd objs)) as [|a [|b l]] eqn:Ea; [reflexivity| |].
  - assert (E : forall h, jhj_trace_obj (f_op (r_fn R)) c2r (r_fl R) (r_custom R) (exs (map snd objs)) axs eaxs (merge_of (mask_of (map snd objs))) th [a] (ids_of true objs) (ids_of false objs) = h ->
      jhj_trace (f_op (r_fn R)) c2r (r_fl R) (r_custom R) (exs (map snd objs)) axs eaxs (merge_of (mask_of (map snd objs))) th [a] = h).
    { intros h <-. unfold jhj_trace, jhj_trace_obj. destruct (has LINEAR (r_fl R)); auto. destruct (has LINEAR_IN_ONE (r_fl R) && _); auto.
      destruct (has LINEAR_IN_FIRST (r_fl R)) eqn:EF; [|reflexivity]. cbn [andb].
      assert (EB : Nat.eqb (posof (merge_of (mask_of (map snd objs))) (length [a]) (length (exs (map snd objs))) 0) 0 =
        match merge_of (mask_of (map snd objs)) (ids_of true objs) (ids_of false objs) with i :: _ => match ids_of true objs with j :: _ => Nat.eqb i j | [] => false end | [] => false end).
      { rewrite merged_ids. destruct (ids_one _ Ea) as (i & Ei & Hi). rewrite Ei. destruct objs as [|[j v] objs]; [discriminate Ea|]. cbn [map fst snd].
        destruct v as [b|x].
        - unfold posof. cbn. injection Ea as -> _. cbn in Ei. injection Ei as -> _. symmetry. apply Nat.eqb_refl.
        - assert (Hij : Nat.eqb j i = false).
          { apply Nat.eqb_neq. intros ->. apply HN. split; [reflexivity|]. exists i, x, objs, a. repeat split; auto. destruct Hi as [Hi|Hi]; auto. discriminate Hi. }
          rewrite Hij. cbn [mask_of map is_al exs flat_map app length]. unfold posof, merge_of. cbn. reflexivity. }
      rewrite EB. reflexivity. }
    destruct (jvp_fn _ _ _ _ _ _ _) as [[[y g] l]|]; [|reflexivity]. cbn [bind]. rewrite (E _ eq_refl). reflexivity.
  - destruct (jvp_fn _ _ _ _ _ _ _) as [[[y g] l']|]; [|reflexivity]. cbn [bind]. unfold jhj_trace, jhj_trace_obj. cbn [length Nat.eqb]. rewrite !andb_false_r. reflexivity.
Qed.
(* with aliasing the second-order term is dropped *)
Theorem obj_aliased R c2r th objs r : has LINEAR_IN_FIRST (r_fl R) = true -> r_float R = true -> aliased objs ->
  wrap_fl_obj R c2r th objs = Some r ->
  exists y g l l2, jvp_fn (r_fn R) (merge_of (mask_of (map snd objs))) (exs (map snd objs)) th (r_fl R) (r_axes R) (als (map snd objs)) = Some (y, g, l) /\
    bin radd l nd0 = Some l2 /\ r = AL (Lapl y g l2).
Proof.
  intros EF Efl (i & x & rest & a & Eo & Hin & Ea) H. unfold wrap_fl_obj in H. destruct (sequence (map (fun a => canon_axes (ndim (lx a)) (r_axes R)) _)) as [axs|]; [|discriminate]. cbn [bind] in H.
  destruct (sequence _) as [eaxs|]; [|discriminate]. cbn [bind] in H. rewrite Ea in H. destruct (jvp_fn _ _ _ _ _ _ _) as [[[y g] l]|] eqn:E; [|discriminate]. cbn [bind] in H.
  assert (EJ : jhj_trace_obj (f_op (r_fn R)) c2r (r_fl R) (r_custom R) (exs (map snd objs)) axs eaxs (merge_of (mask_of (map snd objs))) th [a] (ids_of true objs) (ids_of false objs) = Some nd0).
  { unfold jhj_trace_obj. destruct (has LINEAR (r_fl R)); auto. destruct (_ && _); auto. rewrite merged_ids. destruct (ids_one _ Ea) as (j & Ej & _). rewrite Ej, EF.
    assert (Eij : j = i).
    { assert (K : In i (ids_of true objs)). { unfold ids_of. rewrite Eo. apply in_map_iff. exists (i, AL a). split; auto. apply filter_In. split; [right; exact Hin|reflexivity]. }
      rewrite Ej in K. destruct K as [K|[]]. exact K. }
    rewrite Eo. cbn [map fst]. rewrite Eij, Nat.eqb_refl. reflexivity. }
  rewrite EJ in H. cbn [bind] in H. destruct (bin radd l nd0) as [l2|] eqn:E2; [|discriminate]. cbn [bind] in H. rewrite Efl in H. injection H as <-. rewrite Ea. exists y, g, l, l2. auto.
Qed.
End Alias.
