(* ScanReset.v : what eval_scan computes (interpreter.py:86-137), with the restoring of the index tensors of the carry written out. *)
From Verif Require Export InterpScan.
Set Implicit Arguments.

Section SR.
Context {A : Type} {RA : CRing A}.
(* the same kind of value with the same index tensor, as arrays: equal shapes and equal elements *)
Definition ext_idx (a b : arg A) : Prop :=
  match a, b with
  | AX _, AX _ => True
  | AL u, AL v => match jidx (ljac u), jidx (ljac v) with
      | None, None => True | Some m, Some m' => sh m = sh m' /\ (forall p, inb p (sh m) -> at_ m p = at_ m' p) | _, _ => False end
  | _, _ => False
  end.
Lemma ext_refl a : ext_idx a a.
Proof. destruct a as [u|x]; cbn; auto. destruct (jidx (ljac u)); auto. Qed.
Lemma ext_sym a b : ext_idx a b -> ext_idx b a.
Proof. destruct a as [u|x], b as [v|y]; cbn; auto. destruct (jidx (ljac u)), (jidx (ljac v)); auto. intros [H1 H2]. split; [auto|]. intros p Hp. symmetry. apply H2. rewrite H1. exact Hp. Qed.
Lemma ext_trans a b c : ext_idx a b -> ext_idx b c -> ext_idx a c.
Proof.
  destruct a as [u|x], b as [v|y], c as [w|z]; cbn; try tauto. destruct (jidx (ljac u)), (jidx (ljac v)), (jidx (ljac w)); try tauto. intros [H1 H2] [H3 H4]. split; [congruence|]. intros p Hp. rewrite H2 by exact Hp. apply H4. rewrite <- H1. exact Hp.
Qed.
Lemma same_ext (a b : arg A) : same_idx a b -> ext_idx a b.
Proof. destruct a as [u|x], b as [v|y]; cbn; auto. intros <-. destruct (jidx (ljac u)); auto. Qed.
Lemma all2_F2 {X} (f : X -> X -> bool) l : forall m, all2 f l m = true -> Forall2 (fun x y => f x y = true) l m.
Proof. induction l as [|x l IH]; intros [|y m] H; cbn in H; try discriminate; constructor; apply andb_true_iff in H; [apply H|apply IH, H]. Qed.
Lemma type_set (a c : arg A) : same_type a c = true -> same_idx a (set_idx c a).
Proof. destruct a as [u|x], c as [v|y]; cbn; try discriminate; auto. Qed.
Lemma types_set (carry c : list (arg A)) : all2 (@same_type A) carry c = true -> Forall2 (@same_idx A) carry (map2 (@set_idx A) c carry).
Proof. revert c. induction carry as [|a l IH]; intros [|b m] H; cbn in *; try discriminate; constructor; apply andb_true_iff in H; [apply type_set, H|apply IH, H]. Qed.
Lemma match_ext (a b : arg A) : carry_match a b = true -> ext_idx a b.
Proof.
  unfold carry_match. intros H. apply andb_true_iff in H. destruct H as [H1 H2]. destruct a as [u|x], b as [v|y]; cbn in *; try discriminate; auto. unfold idx_match in H2.
  destruct (jidx (ljac u)) as [m|], (jidx (ljac v)) as [m'|]; try discriminate; auto. apply andb_true_iff in H2. destruct H2 as [H2 H3]. apply ixeqb_eq in H2. split; [exact H2|].
  intros p Hp. rewrite forallb_forall in H3. apply Z.eqb_eq. apply H3. apply allix_spec. exact Hp.
Qed.
Lemma matches_ext (l m : list (arg A)) : all2 (@carry_match A) l m = true -> Forall2 ext_idx l m.
Proof. intros H. apply all2_F2 in H. induction H; constructor; auto using match_ext. Qed.
Lemma matches_type (l m : list (arg A)) : all2 (@carry_match A) l m = true -> all2 (@same_type A) l m = true.
Proof. revert m. induction l as [|a l IH]; intros [|b m] H; cbn in *; try discriminate; auto. apply andb_true_iff in H. destruct H as [H1 H2]. unfold carry_match in H1. apply andb_true_iff in H1. rewrite (proj1 H1). cbn. auto. Qed.
Lemma set_set (c a b : arg A) : same_type a c = true -> same_type a b = true -> set_idx (set_idx c a) b = set_idx c b.
Proof. destruct a, b, c; cbn; try discriminate; auto. Qed.
Lemma sets_set (carry : list (arg A)) : forall c m, all2 (@same_type A) carry c = true -> all2 (@same_type A) carry m = true -> map2 (@set_idx A) (map2 (@set_idx A) c carry) m = map2 (@set_idx A) c m.
Proof.
  induction carry as [|a l IH]; intros [|c cs] [|b m] H1 H2; cbn in *; try discriminate; auto. apply andb_true_iff in H1. apply andb_true_iff in H2. f_equal; [apply set_set; tauto|]. apply IH; tauto.
Qed.

Section Scan.
Context (body : list (arg A) -> option (list (arg A))) (nc nk T : nat) (rv : bool) (xs : list (arg A)).
(* one iteration: the body, the check that the carry keeps its type, and the index tensors of the initial carry put back onto the new carry *)
Definition reiterate (d : list (arg A)) (t : nat) : option (list (arg A) * list (arg A)) :=
  match iterate body nc nk xs d t with
  | None => None
  | Some (c', y) => if all2 (@same_type A) (s_carry nc nk xs) c' then Some (map2 (@set_idx A) c' (s_carry nc nk xs), y) else None
  end.
Theorem scan_reset rs : eval_scan body nc nk T rv xs = Some rs ->
  exists fc fy d ys, iterate body nc nk xs (s_carry nc nk xs) 0%nat = Some (fc, fy) /\ all2 (@carry_match A) (s_carry nc nk xs) fc = true /\
    loop reiterate (order T rv) (s_carry nc nk xs) = Some (d, ys) /\ rs = map2 (@set_idx A) d fc ++ map (@stack_arg A RA) (cols (AX nd0) (unorder rv ys)) /\
    Forall2 (@same_idx A) (s_carry nc nk xs) d /\ (forall v, In v (s_inp nc nk xs) -> exists x, v = AX x) /\ T <> 0%nat.
Proof.
  intros H. unfold eval_scan in H. destruct (Nat.eqb_spec T 0) as [|HT]; [discriminate|]. cbv zeta in H. fold (s_cons nc xs) (s_carry nc nk xs) (s_inp nc nk xs) in H.
  destruct (forallb _ (s_inp nc nk xs)) eqn:Hp; cbn [negb] in H; [|discriminate].
  rewrite (set_same_all (same_idx_refl (s_carry nc nk xs))) in H. fold (iterate body nc nk xs (s_carry nc nk xs) 0%nat) in H.
  destruct (iterate body nc nk xs (s_carry nc nk xs) 0%nat) as [[fc fy]|] eqn:E0; [|discriminate]. destruct (all2 (@carry_match A) (s_carry nc nk xs) fc) eqn:E1; cbn [negb] in H; [|discriminate].
  set (carry := s_carry nc nk xs) in *.
  assert (HL : forall ts c c' ys, loop (fun c t => match match body (s_cons nc xs ++ map2 (@set_idx A) c carry ++ map (fun x => AX (row (aval x) t)) (s_inp nc nk xs)) with None => None | Some r => Some (firstn nk r, skipn nk r) end with
      | None => None | Some (c', y) => if all2 (@same_type A) carry c' then Some (c', y) else None end) ts c = Some (c', ys) -> all2 (@same_type A) carry c = true ->
      loop reiterate ts (map2 (@set_idx A) c carry) = Some (map2 (@set_idx A) c' carry, ys) /\ all2 (@same_type A) carry c' = true).
  { induction ts as [|t ts IH]; intros c c' ys HL Hc; cbn [loop] in *; [injection HL as <- <-; auto|]. unfold reiterate at 1. unfold iterate. fold carry.
    destruct (body _) as [r|]; [|discriminate]. destruct (all2 (@same_type A) carry (firstn nk r)) eqn:Et; [|discriminate].
    match type of HL with match ?X with _ => _ end = _ => destruct X as [[c2 ys2]|] eqn:EL; [|discriminate] end. injection HL as <- <-. destruct (IH _ _ _ EL Et) as [I1 I2]. rewrite I1. auto. }
  match type of H with match ?X with _ => _ end = _ => destruct X as [[c ys]|] eqn:EL; [|discriminate] end. injection H as <-.
  assert (HTy : all2 (@same_type A) carry carry = true).
  { clear. induction carry as [|a l IH]; [reflexivity|]. cbn. rewrite IH, andb_true_r. destruct a; cbn; rewrite !ixeqb_refl; reflexivity. }
  destruct (HL _ _ _ _ EL HTy) as [I1 I2]. rewrite (set_same_all (same_idx_refl carry)) in I1. pose proof (matches_type _ _ E1) as T1.
  exists fc, fy, (map2 (@set_idx A) c carry), ys. split; [reflexivity|]. split; [exact E1|]. split; [exact I1|]. split; [rewrite (sets_set _ _ _ I2 T1); reflexivity|]. split; [apply types_set; exact I2|]. split; [|exact HT].
  intros v Hv. rewrite forallb_forall in Hp. specialize (Hp v Hv). destruct v as [a|x]; [discriminate|]. exists x. reflexivity.
Qed.
(* when the pattern of the carry is static nothing is changed by restoring it *)
End Scan.
End SR.
