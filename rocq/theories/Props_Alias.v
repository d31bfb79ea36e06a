(* Props_Alias.v : C52, results do not depend on whether two arguments are the same array object. *)
From Coq Require Import Reals.
From Verif Require Export Alias Props_Hess.
Set Implicit Arguments.

(* A rule call only depends on the values of its arguments, unless the rule is flagged LINEAR_IN_FIRST, the first argument is a constant, exactly one
   argument carries derivatives, and the constant is the very array object stored in that argument. *)
Theorem C52_identity_irrelevant_partial : forall (A : Type) (RA : CRing A) (R : rule A) (complex_to_real : bool) (threshold : Z) (objs : list (nat * arg A)),
  (has LINEAR_IN_FIRST (r_fl R) = true -> forall i x rest j a, objs = (i, AX x) :: rest -> In (j, AL a) rest -> length (als (map snd objs)) = 1%nat -> i <> j) ->
  wrap_fl_obj R complex_to_real threshold objs = wrap_fl R complex_to_real threshold (map snd objs).
Proof.
  intros A RA R c2r th objs H. apply obj_same. intros [EF (i & x & rest & a & E1 & E2 & E3)]. apply (H EF i x rest i a E1 E2); auto. rewrite E3. reflexivity.
Qed.
Print Assumptions C52_identity_irrelevant_partial.
(* in particular two calls whose arguments have the same values give the same result when neither aliases a constant with the dependent argument *)
Theorem C52_same_values_same_result : forall (A : Type) (RA : CRing A) (R : rule A) (complex_to_real : bool) (threshold : Z) (objs objs' : list (nat * arg A)),
  map snd objs = map snd objs' -> NoDup (map fst objs) -> NoDup (map fst objs') ->
  wrap_fl_obj R complex_to_real threshold objs = wrap_fl_obj R complex_to_real threshold objs'.
Proof.
  assert (D : forall (A : Type) (RA : CRing A) (R : rule A) c2r th (objs : list (nat * arg A)), NoDup (map fst objs) -> wrap_fl_obj R c2r th objs = wrap_fl R c2r th (map snd objs)).
  { intros A RA R c2r th objs H. apply obj_same. intros [_ (i & x & rest & a & -> & E2 & _)]. inversion H as [|? ? N]; subst. apply N. apply in_map_iff. exists (i, AL a). auto. }
  intros A RA R c2r th objs objs' E H H'. rewrite (D A RA R c2r th objs H), (D A RA R c2r th objs' H'), E. reflexivity.
Qed.
Print Assumptions C52_same_values_same_result.
(* x has the value 1, derivative 1 and Laplacian 0 (one input) *)
Definition al_x : lapl R := Lapl (rarr [1]%nat [1%R]) (Jac (rarr [1; 1]%nat [1%R]) None) (rarr [1]%nat [0%R]).
(* c / x at c = x = 1: the Laplacian is 2, but 0 is returned when c is the array object of x *)
Theorem C52_aliased_constant_refuted : exists (c : nd R) (a r r' : lapl R),
  c = lx a /\
  wrap_fl_obj (div_rule Rinv) false 0 [(7%nat, AX c); (8%nat, AL a)] = Some (AL r) /\ at_ (llap r) [0%nat] = 2%R /\
  wrap_fl_obj (div_rule Rinv) false 0 [(7%nat, AX c); (7%nat, AL a)] = Some (AL r') /\ at_ (llap r') [0%nat] = 0%R.
Proof.
  exists (lx al_x), al_x.
  assert (G : forall (o : option (arg R)), match o with Some (AL _) => True | _ => False end -> exists r, o = Some (AL r)).
  { intros [[r|]|] H; try contradiction. exists r. reflexivity. }
  destruct (G (wrap_fl_obj (div_rule Rinv) false 0 [(7%nat, AX (lx al_x)); (8%nat, AL al_x)])) as [r Er]; [vm_compute; exact I|].
  destruct (G (wrap_fl_obj (div_rule Rinv) false 0 [(7%nat, AX (lx al_x)); (7%nat, AL al_x)])) as [r' Er']; [vm_compute; exact I|].
  exists r, r'. split; [reflexivity|]. split; [exact Er|]. split; [|split; [exact Er'|]].
  - assert (E : match wrap_fl_obj (div_rule Rinv) false 0 [(7%nat, AX (lx al_x)); (8%nat, AL al_x)] with Some (AL r) => at_ (llap r) [0%nat] = 2%R | _ => True end) by (vm_compute; field).
    rewrite Er in E. exact E.
  - assert (E : match wrap_fl_obj (div_rule Rinv) false 0 [(7%nat, AX (lx al_x)); (7%nat, AL al_x)] with Some (AL r) => at_ (llap r) [0%nat] = 0%R | _ => True end) by (vm_compute; field).
    rewrite Er' in E. exact E.
Qed.
Print Assumptions C52_aliased_constant_refuted.
(* whatever the identities, the value and the Jacobian are those of the call on distinct objects; only the second-order part of the Laplacian can be lost, and it is lost
   exactly for a LINEAR_IN_FIRST rule whose constant first argument is the array object of the only dependent one: then the Laplacian is the pushed-forward one *)
Theorem C52_values_and_jacobians_never_depend_on_identity : forall (A : Type) (RA : CRing A) (R : rule A) (complex_to_real : bool) (threshold : Z) (objs : list (nat * arg A)) (r r' : arg A),
  wrap_fl_obj R complex_to_real threshold objs = Some r -> wrap_fl R complex_to_real threshold (map snd objs) = Some r' ->
  aval r = aval r' /\ is_al r = is_al r' /\ (forall a a', r = AL a -> r' = AL a' -> ljac a = ljac a').
Proof.
  intros A RA R c2r th objs r r' H H'. unfold wrap_fl_obj in H. unfold wrap_fl in H'. destruct (sequence (map (fun a => canon_axes (ndim (lx a)) (r_axes R)) _)) as [axs|]; [|discriminate]. cbn [bind] in H, H'.
  destruct (sequence _) as [eaxs|]; [|discriminate]. cbn [bind] in H, H'. destruct (als (map snd objs)) as [|a l] eqn:Ea.
  - assert (E : r = r') by congruence. subst r'. split; [reflexivity|]. split; [reflexivity|]. intros x y -> E. injection E as ->. reflexivity.
  - destruct (jvp_fn _ _ _ _ _ _ _) as [[[y g] l']|]; [|discriminate]. cbn [bind] in H, H'. destruct (jhj_trace_obj _ _ _ _ _ _ _ _ _ _ _ _) as [h|]; [|discriminate]. destruct (jhj_trace _ _ _ _ _ _ _ _ _ _) as [h'|]; [|discriminate]. cbn [bind] in H, H'.
    destruct (bin radd l' h) as [l2|]; [|discriminate]. destruct (bin radd l' h') as [l2'|]; [|discriminate]. cbn [bind] in H, H'. destruct (r_float R); injection H as <-; injection H' as <-; (split; [reflexivity|]; split; [reflexivity|]).
    + intros x z E E'. injection E as <-. injection E' as <-. reflexivity.
    + intros x z E. discriminate.
Qed.
Print Assumptions C52_values_and_jacobians_never_depend_on_identity.
Theorem C52_aliased_call_drops_the_second_order_part : forall (A : Type) (RA : CRing A) (R : rule A) (complex_to_real : bool) (threshold : Z) (objs : list (nat * arg A)) (r : lapl A),
  has LINEAR_IN_FIRST (r_fl R) = true -> aliased objs -> wrap_fl_obj R complex_to_real threshold objs = Some (AL r) ->
  exists t, jvp_fn (r_fn R) (merge_of (mask_of (map snd objs))) (exs (map snd objs)) threshold (r_fl R) (r_axes R) (als (map snd objs)) = Some t /\
    lx r = fst (fst t) /\ ljac r = snd (fst t) /\ bin radd (snd t) nd0 = Some (llap r).
Proof.
  intros A RA R c2r th objs r HF (i & x & rest & a & -> & Hin & Ea) H. unfold wrap_fl_obj in H. destruct (sequence (map (fun a => canon_axes (ndim (lx a)) (r_axes R)) _)) as [axs|]; [|discriminate]. cbn [bind] in H.
  destruct (sequence _) as [eaxs|]; [|discriminate]. cbn [bind] in H. rewrite Ea in H |- *. destruct (jvp_fn _ _ _ _ _ _ _) as [[[y g] l']|]; [|discriminate]. cbn [bind] in H. exists (y, g, l'). split; [reflexivity|]. cbn [fst snd].
  assert (EJ : jhj_trace_obj (f_op (r_fn R)) c2r (r_fl R) (r_custom R) (exs (map snd ((i, AX x) :: rest))) axs eaxs (merge_of (mask_of (map snd ((i, AX x) :: rest)))) th [a] (ids_of true ((i, AX x) :: rest)) (ids_of false ((i, AX x) :: rest)) = Some nd0).
  { unfold jhj_trace_obj. destruct (has LINEAR (r_fl R)); [reflexivity|]. destruct (has LINEAR_IN_ONE (r_fl R) && _); [reflexivity|]. rewrite HF, merged_ids. destruct (ids_one _ Ea) as (j & Ej & Hj).
    assert (EI : i = j).
    { assert (Hi : In i (ids_of true ((i, AX x) :: rest))) by (unfold ids_of; apply in_map_iff; exists (i, AL a); split; [reflexivity|]; apply filter_In; split; [right; exact Hin|reflexivity]). rewrite Ej in Hi. destruct Hi as [Hi|[]]. symmetry. exact Hi. }
    rewrite Ej. cbn [map fst]. rewrite EI, Nat.eqb_refl. reflexivity. }
  rewrite EJ in H. cbn [bind] in H. destruct (bin radd l' nd0) as [l2|]; [|discriminate]. cbn [bind] in H. destruct (r_float R); [|discriminate]. injection H as <-. auto.
Qed.
Print Assumptions C52_aliased_call_drops_the_second_order_part.
(* the hypotheses of the partial theorem on a division of two different objects *)
Example C52_hypotheses_met : let objs := [(7%nat, AX (lx al_x)); (8%nat, AL al_x)] in
  NoDup (map fst objs) /\ is_some (wrap_fl_obj (div_rule Rinv) false 0 objs) = true.
Proof. split; [repeat constructor; cbn; intuition discriminate|vm_compute; reflexivity]. Qed.
