(* Props_Memory.v : C32, C51 *)
From Verif Require Export MemFacts MemExact.
Set Implicit Arguments.
Local Open Scope Z_scope.

(* C32. For every straight-line jaxpr (any number of equations and variables, single assignment, defined before use) in
   which no equation reads a variable twice for the last time, compute_memory returns the peak over all equations of the
   bytes of the live variables (0 for a jaxpr without equations). *)
Theorem C32_peak_partial : forall p, ssa p -> scoped p -> last_reads_once p -> few_reads (m_code p) -> straight_line p ->
  exists r, compute_memory p = Some r /\ is_peak p (live_bytes p) r.
Proof. exact compute_memory_spec. Qed.
Print Assumptions C32_peak_partial.
(* with pjit / scan sub-jaxprs: bytes live in the caller plus the peak of the callee *)
Theorem C32_nested_partial : forall p r, ssa p -> last_reads_once p -> few_reads (m_code p) -> compute_memory p = Some r ->
  (forall e, In e (m_eqns p) -> sub_peak e <> None) /\
  is_peak p (fun es1 e es2 => live_bytes p es1 e es2 + match sub_peak e with Some s => s | None => 0 end) r.
Proof. intros p r. exact (@jaxpr_memory_spec p false r). Qed.
Print Assumptions C32_nested_partial.

(* What compute_memory returns without the condition on double reads: the peak of the live bytes minus what was freed more than once before (freed_twice: a variable
   that an equation reads k times and nobody needs afterwards is freed k times). *)
Theorem C32_exact_value : forall p, ssa p -> scoped p -> few_reads (m_code p) -> straight_line p ->
  exists r, compute_memory p = Some r /\ is_peak p (fun es1 e es2 => live_bytes p es1 e es2 - freed_twice p es1 (e :: es2)) r.
Proof. exact compute_memory_exact. Qed.
Print Assumptions C32_exact_value.
Theorem C32_nested_exact_value : forall p r, ssa p -> few_reads (m_code p) -> compute_memory p = Some r ->
  (forall e, In e (m_eqns p) -> sub_peak e <> None) /\
  is_peak p (fun es1 e es2 => live_bytes p es1 e es2 - freed_twice p es1 (e :: es2) + match sub_peak e with Some s => s | None => 0 end) r.
Proof. intros p r. exact (@jaxpr_memory_exact p false r). Qed.
Print Assumptions C32_nested_exact_value.
(* C51: compute_memory never reports more than the peak of the live bytes, sub-jaxprs included *)
Theorem C51_never_overestimates : forall p m r, well_formed p -> peak_of p m -> compute_memory p = Some r -> r <= m.
Proof. intros p m r HW HP HR. exact (@never_overestimates p HW m false r HP HR). Qed.
Print Assumptions C51_never_overestimates.

Lemma few_reads_small (C : code Z) n : (length (reads (c_eqns C)) + length (vars_of (c_outs C)))%nat = n -> (Z.of_nat n <=? 1000) = true -> few_reads C.
Proof.
  intros Hn Hs v _. assert (H : forall l, occ v l <= Z.of_nat (length l)).
  { intros l. unfold occ. assert (length (filter (Nat.eqb v) l) <= length l)%nat; [|lia]. induction l; cbn; [lia|]. destruct (Nat.eqb v a); cbn; lia. }
  pose proof (H (reads (c_eqns C))). pose proof (H (vars_of (c_outs C))). apply Z.leb_le in Hs. unfold int32max. lia.
Qed.

(* y = f x; z = y * y; w = g z z'; return w : the double read of y is subtracted twice *)
Definition ex_sq : mprog := MProg [] [(0%nat, 4)]
  [([AVar 0%nat], [(1%nat, 4000)], None); ([AVar 1%nat; AVar 1%nat], [(2%nat, 4000)], None); ([AVar 2%nat], [(3%nat, 7000)], None)] [AVar 3%nat].
Theorem C32_double_read_refuted : exists p, ssa p /\ scoped p /\ few_reads (m_code p) /\ straight_line p /\
  exists r, compute_memory p = Some r /\ ~ is_peak p (live_bytes p) r.
Proof.
  exists ex_sq. split; [repeat constructor; cbn; intuition discriminate|]. split.
  { intros es1 e es2 H v Hv. destruct es1 as [|e1 [|e2 [|e3 [|]]]]; cbn in H; inversion H; subst; cbn in *; tauto. }
  split; [eapply few_reads_small; reflexivity|]. split; [intros e [<-|[<-|[<-|[]]]]; reflexivity|].
  exists 8004. split; [reflexivity|]. intros (_ & H & _).
  specialize (H [([AVar 0%nat], [(1%nat, 4000)], None); ([AVar 1%nat; AVar 1%nat], [(2%nat, 4000)], None)] ([AVar 2%nat], [(3%nat, 7000)], None) [] eq_refl).
  vm_compute in H. apply H. reflexivity.
Qed.
Print Assumptions C32_double_read_refuted.

(* a program meeting the hypotheses of C32_peak_partial: a constant, a literal, a variable used twice, an unused result *)
Definition ex_mem : mprog := MProg [(9%nat, 16)] [(0%nat, 8)]
  [([AVar 0%nat; AVar 0%nat; AVar 9%nat], [(1%nat, 100); (7%nat, 5)], None); ([AVar 1%nat; ALit 4], [(2%nat, 60)], None);
   ([AVar 2%nat; AVar 1%nat], [(3%nat, 30)], None); ([AVar 3%nat], [(4%nat, 120)], None)] [AVar 4%nat; AVar 0%nat].
Example C32_hypotheses_met : ssa ex_mem /\ scoped ex_mem /\ last_reads_once ex_mem /\ few_reads (m_code ex_mem) /\ straight_line ex_mem /\
  compute_memory ex_mem = Some 214.
Proof.
  split; [repeat constructor; cbn; intuition discriminate|]. split.
  { intros es1 e es2 H v Hv. destruct es1 as [|e1 [|e2 [|e3 [|e4 [|]]]]]; cbn in H; inversion H; subst; cbn in *; tauto. }
  split.
  { intros es1 e es2 H. destruct es1 as [|e1 [|e2 [|e3 [|e4 [|]]]]]; cbn in H; inversion H; subst; vm_compute; repeat constructor; cbn; intuition congruence. }
  split; [eapply few_reads_small; reflexivity|]. split; [|reflexivity].
  intros e [<-|[<-|[<-|[<-|[]]]]]; reflexivity.
Qed.
Example C32_empty : compute_memory (MProg [] [(0%nat, 8)] [] [AVar 0%nat]) = Some 0.
Proof. reflexivity. Qed.

(* y = f x; z = jit(q)(y, y); return z, with q(a, b) = g(h(a, b)).  y is freed twice, so the second equation of the caller is estimated too low. *)
Definition ex_q : mprog := MProg [] [(0%nat, 4000); (1%nat, 4000)] [([AVar 0%nat; AVar 1%nat], [(2%nat, 500)], None); ([AVar 2%nat], [(3%nat, 4000)], None)] [AVar 3%nat].
Definition ex_nest : mprog := MProg [] [(0%nat, 4)]
  [([AVar 0%nat], [(1%nat, 4000)], None); ([AVar 1%nat; AVar 1%nat], [(2%nat, 4000)], Some ex_q); ([AVar 2%nat], [(3%nat, 30000)], None)] [AVar 3%nat].
Lemma ex_q_peak : peak_of ex_q 12500.
Proof.
  apply (@Peak ex_q 12500 (fun _ => 0)); [reflexivity|intros e q [<-|[<-|[]]] H; discriminate|]. split; [lia|]. split.
  - intros es1 e es2 H. destruct es1 as [|e1 [|e2 [|]]]; cbn in H; inversion H; subst; vm_compute; discriminate.
  - right. exists [([AVar 0%nat; AVar 1%nat], [(2%nat, 500)], None)], ([AVar 2%nat], [(3%nat, 4000)], None), []. split; reflexivity.
Qed.
Example C51_hypotheses_met : well_formed ex_nest /\ peak_of ex_nest 34004 /\ compute_memory ex_nest = Some 30004.
Proof.
  split; [|split; [|reflexivity]].
  - apply Wf; [repeat constructor; cbn; intuition discriminate|intros d Hd; cbn in Hd; repeat (destruct Hd as [<-|Hd]; [cbn; lia|]); destruct Hd|eapply few_reads_small; reflexivity|].
    intros e q [<-|[<-|[<-|[]]]] H; try discriminate. injection H as <-. apply Wf; [repeat constructor; cbn; intuition discriminate|intros d Hd; cbn in Hd; repeat (destruct Hd as [<-|Hd]; [cbn; lia|]); destruct Hd|eapply few_reads_small; reflexivity|].
    intros e q [<-|[<-|[]]] H; discriminate.
  - apply (@Peak ex_nest 34004 (fun e => match e_sub e with Some _ => 12500 | None => 0 end)).
    + intros e _ ->. reflexivity.
    + intros e q [<-|[<-|[<-|[]]]] H; try discriminate. injection H as <-. exact ex_q_peak.
    + split; [lia|]. split.
      * intros es1 e es2 H. destruct es1 as [|e1 [|e2 [|e3 [|]]]]; cbn in H; inversion H; subst; vm_compute; discriminate.
      * right. exists [([AVar 0%nat], [(1%nat, 4000)], None); ([AVar 1%nat; AVar 1%nat], [(2%nat, 4000)], Some ex_q)], ([AVar 2%nat], [(3%nat, 30000)], None), []. split; reflexivity.
Qed.
