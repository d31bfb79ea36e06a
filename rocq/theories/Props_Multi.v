(* Props_Multi.v : C58, functions whose result is a list of arrays: custom_jvp calls (which return a list whatever the number of results) and
   unregistered primitives with several results. *)
From Coq Require Import Reals Lra QArith.
From Coquelicot Require Import Coquelicot.
From Verif Require Export Props_Reg Props_Static SparseProg Props_SparseTotal Multi.
Set Implicit Arguments.
Open Scope nat_scope.
Local Notation fwd c2r := (forward_laplacian (prim_reg c2r) (name_reg c2r) c2r).

(* specification (no /repo code): which arguments a list-valued function is accepted with: every Jacobian is dense, or there is exactly one FwdLaplArray, it has
   an axis, and its index tensor m stores more than th different inputs (l lists them: stored) *)
Definition accepted {A} {RA : CRing A} (th : Z) (la : list (lapl A)) : Prop :=
  (forall a, In a la -> weak (ljac a) = false) \/
  exists a m l, la = [a] /\ jidx (ljac a) = Some m /\ sh (lx a) <> [] /\ stored m l /\ (th < Z.of_nat (length l))%Z.

(* ---- C58: a custom_jvp call whose operands depend on the inputs returns if and only if its operands are accepted (with or without reference counting, whatever
   is registered), for Jacobians in which every element stores a dependence (goodv) and functions whose value and derivatives use only the operands' values ---- *)
Theorem C58_custom_jvp_returns_iff : forall (A : Type) (RA : CRing A) (K : Type) (reg : K -> option lrule) (nreg : nat -> option lrule) (c2r rc : bool) (th : Z) (n : nat) (fs : list (op A)) (args : list (arg A)),
  0 < n -> als args <> [] -> (forall v, In v args -> goodv n v) ->
  (forall f, In f fs -> ne (sh (o_fwd f (map (@aval A) args))) /\ op_ext f (map (@aval A) args)) ->
  (exists rs, step_of reg nreg c2r rc th (KCustom fs) args = Some rs) <-> accepted th (als args).
Proof.
  intros A RA K reg nreg c2r rc th n fs args Hn Hne HG HF. unfold accepted. rewrite <- (@list_iff A RA n fs c2r th args Hn Hne HG HF). cbn [step_of].
  destruct (forallb _ args) eqn:E; [|reflexivity]. exfalso. apply Hne. clear - E. induction args as [|[a|x] l IH]; [reflexivity|discriminate|]. cbn in E. cbn. apply IH. exact E.
Qed.
Print Assumptions C58_custom_jvp_returns_iff.
(* the same for a primitive with several results for which no rule is registered *)
Theorem C58_several_results_return_iff : forall (A : Type) (RA : CRing A) (K : Type) (reg : K -> option lrule) (c2r : bool) (th : Z) (n : nat) (key : K) (f g : op A) (fs : list (op A)) (args : list (arg A)),
  0 < n -> als args <> [] -> (forall v, In v args -> goodv n v) -> reg key = None ->
  (forall h, In h (f :: g :: fs) -> ne (sh (o_fwd h (map (@aval A) args))) /\ op_ext h (map (@aval A) args)) ->
  (exists rs, eval_prim reg c2r key (f :: g :: fs) th args = Some rs) <-> accepted th (als args).
Proof. intros A RA K reg c2r th n key f g fs args Hn Hne HG HR HF. unfold eval_prim. rewrite HR. exact (@list_iff A RA n (f :: g :: fs) c2r th args Hn Hne HG HF). Qed.
Print Assumptions C58_several_results_return_iff.
(* whereas a primitive with one result and no rule always returns when it is applied to one FwdLaplArray *)
Theorem C58_one_result_returns : forall (A : Type) (RA : CRing A) (K : Type) (reg : K -> option lrule) (c2r : bool) (th : Z) (n : nat) (key : K) (f : op A) (args : list (arg A)),
  0 < n -> length (als args) = 1 -> (forall v, In v args -> goodv n v) -> reg key = None -> ne (sh (o_fwd f (map (@aval A) args))) -> op_ext f (map (@aval A) args) ->
  exists r, eval_prim reg c2r key [f] th args = Some [r] /\ goodv n r.
Proof.
  intros A RA K reg c2r th n key f args Hn H1 HG HR NE HE. unfold eval_prim. rewrite HR. unfold missing_rule, default_rule. cbn [map sequence].
  destruct (@general_fn_good A RA n f c2r th args Hn ltac:(intros Q0; rewrite Q0 in H1; discriminate) ltac:(lia) HG NE HE) as (r & E & G). rewrite E. cbn. exists (AL r). split; [reflexivity|apply G].
Qed.
Print Assumptions C58_one_result_returns.

(* ---- whatever such a call returns is exact: value, Jacobian entries (chain rule) and Laplacian (lspec: chain rule on the Laplacians; hspec: second-order part) of every
   result, for every threshold and mixture of Jacobians ---- *)
Theorem C58_returned_results_are_exact : forall (A : Type) (RA : CRing A) (K : Type) (reg : K -> option lrule) (nreg : nat -> option lrule) (c2r rc : bool) (th : Z) (n : nat) (fs : list (op A)) (args rs : list (arg A)),
  0 < n -> als args <> [] -> (forall v, In v args -> vok n v) -> (forall f, In f fs -> op_ext f (map (@aval A) args)) ->
  step_of reg nreg c2r rc th (KCustom fs) args = Some rs ->
  let la := map (@Wrap.lift A RA) args in
  Forall2 (fun f r => exists a, r = AL a /\ lx a = o_fwd f (map (@aval A) args) /\
    (forall i p, inb p (sh (lx a)) -> jent (ljac a) i p = dspec f la i p) /\ (forall p, inb p (sh (lx a)) -> at_ (llap a) p = radd (lspec f la p) (hspec n f la p))) fs rs.
Proof.
  intros A RA K reg nreg c2r rc th n fs args rs Hn Hne HV HF H la. cbn [step_of] in H.
  destruct (forallb _ args) eqn:E. { exfalso. apply Hne. clear - E. induction args as [|[a|x] l IH]; [reflexivity|discriminate|]. cbn in E. cbn. apply IH. exact E. }
  destruct (@list_mix A RA n c2r th fs args rs H) as [M1 M2]. apply list_default in H. unfold default_rule in H. clear E. revert rs H HF. induction fs as [|f fs IH]; intros rs H HF; cbn in H; [injection H as <-; constructor|].
  destruct (wrap_fl _ c2r th args) as [r|] eqn:Hr; [|discriminate]. destruct (sequence _) as [vs|]; [|discriminate]. cbn in H. injection H as <-. constructor; [|apply IH; [reflexivity|intros g Hg; apply HF; right; exact Hg]].
  destruct (@general_fn_sound A RA n f c2r th args r Hn Hne HV M1 M2 (HF f (or_introl eq_refl)) Hr) as (a & -> & (A1 & A2 & A3 & A4) & _). exists a. split; [reflexivity|]. split; [exact A1|]. rewrite A1. split; [exact A3|exact A4].
Qed.
Print Assumptions C58_returned_results_are_exact.

(* ---- the results do not mix: the second-order part is computed for the flattened list of results (cat_op) and unravelled (piece); result j is exactly what the
   computation for function j alone gives ---- *)
Theorem C58_results_do_not_mix : forall (A : Type) (RA : CRing A) (fs : list (op A)) (c2r : bool) (args : list (lapl A)) (idx : option (nd Z)) (h : nd A) (j : nat),
  general_jhj (cat_op fs) c2r args idx = Some h -> j < length fs ->
  let ss := map (fun f => sh (o_fwd f (xs_of args))) fs in
  exists hj, general_jhj (nth j fs op0) c2r args idx = Some hj /\ sh hj = nth j ss [] /\ forall c, inb c (sh hj) -> at_ (piece ss j h) c = at_ hj c.
Proof. exact @flat_results. Qed.
Print Assumptions C58_results_do_not_mix.

(* ---- so sparsity makes forward_laplacian raise on programs that it accepts with threshold 0, and whose function it accepts as a registered primitive (finding 34) ---- *)
Lemma ew_op_ext phi d h (xs : list (nd R)) : bshapes (map (@sh R) xs) <> None -> op_ext (ew_op phi d h) xs.
Proof.
  intros HB ys HE. assert (Es : map (@sh R) ys = map (@sh R) xs) by (clear -HE; induction HE as [|x y xs ys [H _] _ IH]; cbn; congruence). split; [cbn [ew_op o_fwd sh]; unfold ew_shape; rewrite Es; reflexivity|].
  assert (EN : forall a, sh (nth a ys nd0) = sh (nth a xs nd0)) by (intros a; rewrite <- !(map_nth (@sh R)); rewrite Es; reflexivity).
  intros p a q b r Hp _ _ _ _. destruct (@ew_ext R _ (fun v => h v a b) d h xs HB ys HE) as [_ E]. specialize (E p Hp). cbn [ew_op o_fwd at_] in E. cbn [ew_op o_h]. rewrite !EN, E. reflexivity.
Qed.
Lemma custom_fits k phi d h xs : prim_op k = ew_op phi d h -> prim_ops k = [prim_op k] -> applies k xs -> bshapes (map (@sh R) xs) <> None -> smooth (prim_op k) xs ->
  forall f, In f (prim_ops k) -> fwd_ext f xs /\ op_ext f xs /\ smooth f xs.
Proof. intros E0 E1 HA HB HS f Hf. rewrite E1 in Hf. destruct Hf as [<-|[]]. split; [apply prim_ext1; exact HA|]. split; [rewrite E0; apply ew_op_ext; exact HB|exact HS]. Qed.
(* f(x) = custom_jvp(sin)(x) and custom_jvp(logaddexp)(x, x) at x = (2, 3) *)
Definition muA : @jaxpr R prim := Jaxpr [] [0] [] [Eqn (KCustom (prim_ops (PUn USin))) [V 0] [1]] [V 1].
Definition muB : @jaxpr R prim := Jaxpr [] [0] [] [Eqn (KCustom (prim_ops (PBin BLogaddexp))) [V 0; V 0] [1]] [V 1].
Definition muC : @jaxpr R prim := Jaxpr [] [0] [] [pe (PUn USin) [V 0] 1] [V 1].
Theorem C58_sparse_custom_jvp_raises_refuted : smallj muA /\ smooth_noscan muA true exX /\ th_of 1%Q (map (@AX R) exX) = 1%Z /\ th_of 2%Q (map (@AX R) exX) = 2%Z /\
  issome (fwd false 0%Q muA (ones exX) (map (@AX R) exX)) = true /\ issome (fwd false 1%Q muA (ones exX) (map (@AX R) exX)) = true /\
  fwd false 2%Q muA (ones exX) (map (@AX R) exX) = None /\ issome (fwd false 2%Q muC (ones exX) (map (@AX R) exX)) = true.
Proof.
  split; [unfold muA; small_prog|]. split; [|repeat split; vm_compute; reflexivity].
  unfold smooth_noscan, muA, exX. cbn -[prim_op prim_ops applies diff_at o_fwd]. repeat match goal with |- _ /\ _ => split end; try fits.
  assert (HA : applies (PUn USin) [lits [2] [2; 3]%R]) by fits. eapply custom_fits; try reflexivity; [exact HA|vm_compute; discriminate|]. apply (@prim_smooth (PUn USin) _ HA). fits. exact I.
Qed.
Print Assumptions C58_sparse_custom_jvp_raises_refuted.
Theorem C58_two_sparse_operands_raise_refuted : smallj muB /\ smooth_noscan muB true exX /\
  issome (fwd false 0%Q muB (ones exX) (map (@AX R) exX)) = true /\ fwd false 1%Q muB (ones exX) (map (@AX R) exX) = None.
Proof.
  split; [unfold muB; small_prog|]. split; [|repeat split; vm_compute; reflexivity].
  unfold smooth_noscan, muB, exX. cbn -[prim_op prim_ops applies diff_at o_fwd]. repeat match goal with |- _ /\ _ => split end; try fits.
  assert (HA : applies (PBin BLogaddexp) [lits [2] [2; 3]%R; lits [2] [2; 3]%R]) by (split; [reflexivity|vm_compute; discriminate]). eapply custom_fits; try reflexivity; [exact HA|vm_compute; discriminate|]. apply (@prim_smooth (PBin BLogaddexp) _ HA). intros p Hp. exact I. exact I.
Qed.
Print Assumptions C58_two_sparse_operands_raise_refuted.

(* ---- the hypotheses are met: the FwdLaplArray of x = (2, 3) with its sparse Jacobian; custom_jvp(sin) is accepted for threshold 1 and rejected for threshold 2 ---- *)
Definition muX : lapl R := Lapl (lits [2] [2; 3]%R) (Jac (lits [1; 2] [1; 1]%R) (Some (Nd [1; 2] (fun i => Z.of_nat (nth 1 i 0))))) (lits [2] [0; 0]%R).
Lemma muX_good : SparseTotal.good 2 muX.
Proof.
  split; [split; [|reflexivity]|split].
  - exists 1. split; [reflexivity|]. split; [reflexivity|]. intros r p Hr Hp. inversion Hp as [|a ? ? ? H1 H2]; subst. inversion H2; subst. cbn. lia.
  - intros p Hp. cbn in Hp. exists 0. split; [cbn; lia|]. cbn. lia.
  - exists [0]. repeat constructor.
Qed.
Lemma muX_stored : stored (Nd [1; 2] (fun i => Z.of_nat (nth 1 i 0))) [0; 1]%Z.
Proof.
  split; [repeat constructor; cbn; intuition discriminate|]. intros z. split.
  - intros [<-|[<-|[]]]; (split; [lia|]); [exists [0; 0]|exists [0; 1]]; (split; [repeat constructor|reflexivity]).
  - intros (Hz & q & Hq & E). cbn [sh] in Hq. inversion Hq as [|a ? l ? H1 H2]; subst. inversion H2 as [|b ? l' ? H3 H4]; subst. inversion H4; subst. cbn. destruct b as [|[|b]]; [left; reflexivity|right; left; reflexivity|lia].
Qed.
Example C58_hypotheses_met : 0 < 2 /\ als [AL muX] <> [] /\ (forall v, In v [AL muX] -> goodv 2 v) /\
  (forall f, In f (prim_ops (PUn USin)) -> ne (sh (o_fwd f (map (@aval R) [AL muX]))) /\ op_ext f (map (@aval R) [AL muX])) /\ accepted 1%Z (als [AL muX]) /\ ~ accepted 2%Z (als [AL muX]) /\
  accepted 0%Z (als [AL muX]) /\ ~ accepted 0%Z (als [AL muX; AL muX]).
Proof.
  split; [lia|]. split; [discriminate|]. split; [intros v [<-|[]]; exact muX_good|]. split.
  { intros f [<-|[]]. split; [exists [0]; repeat constructor|]. apply ew_op_ext. vm_compute. discriminate. }
  split; [|split; [|split]].
  - right. exists muX. eexists. exists [0; 1]%Z. split; [reflexivity|]. split; [reflexivity|]. split; [discriminate|]. split; [exact muX_stored|]. cbn. lia.
  - intros [H|(a & m & l & E1 & E2 & _ & E3 & E4)]; [specialize (H muX (or_introl eq_refl)); discriminate|]. injection E1 as <-. injection E2 as <-. rewrite <- (stored_len muX_stored E3) in E4. cbn in E4. lia.
  - right. exists muX. eexists. exists [0; 1]%Z. split; [reflexivity|]. split; [reflexivity|]. split; [discriminate|]. split; [exact muX_stored|]. cbn. lia.
  - intros [H|(a & m & l & E1 & _)]; [specialize (H muX (or_introl eq_refl)); discriminate|discriminate].
Qed.
(* two results, of sizes 2 and 1: the flat second-order vector has 3 elements *)
Example C58_mix_case : let fs := [prim_op (PUn USin); prim_op (PSum [0])] in let d := Lapl (lits [2] [2; 3]%R) (Jac (lits [2; 2] [1; 0; 0; 1]%R) None) (lits [2] [0; 0]%R) in
  match general_jhj (cat_op fs) false [d] None with Some h => sh h = [3] | None => False end /\ map (fun f => sh (o_fwd f (xs_of [d]))) fs = [[2]; []].
Proof. vm_compute. split; reflexivity. Qed.
