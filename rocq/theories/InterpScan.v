(* InterpScan.v : nested jit = inlining (C28), scan = unrolled loop (C29), dense programs stay dense (C14). *)
From Verif Require Export InterpFacts.
Set Implicit Arguments.

Section Sc.
Context {A : Type} {RA : CRing A} {K : Type}.
Context (reg : K -> option (@lrule A)) (nreg : nat -> option (@lrule A)) (c2r : bool).
Notation step := (step_of reg nreg c2r).
Notation jeval := (jrun reg nreg c2r).
Notation instr_at := (instr_of reg nreg c2r).
Notation code_at := (code_of reg nreg c2r).

(* ---- plain arguments: exactly the plain program ---- *)
Definition plain_env (E : @env0 (arg A)) (F : @env0 (nd A)) : Prop := forall v, E v = option_map (@AX A) (F v).
Lemma plain_read E F l : plain_env E F -> read0_many E (map (@plain_atom A) l) = option_map (map (@AX A)) (read0_many F l).
Proof. intros H. apply (@agree_read A (fun _ => false)); [intros v _; apply H|]. induction l as [|[v|x] l IH]; cbn; auto. Qed.
Lemma plain_write vs : forall E F xs, plain_env E F -> match write0_many E vs (map (@AX A) xs), write0_many F vs xs with Some E1, Some F1 => plain_env E1 F1 | None, None => True | _, _ => False end.
Proof.
  induction vs as [|v vs IH]; intros E F [|x xs] H; cbn [map write0_many]; auto. apply IH. intros w. unfold vset. destruct (Nat.eqb w v); [reflexivity|apply H].
Qed.
Lemma plain_exec rc th es : forall E F, plain_env E F -> match exec0 E (map (instr_at rc th) es), exec0 F (map (@pinstr_of A RA K) es) with Some E1, Some F1 => plain_env E1 F1 | None, None => True | _, _ => False end.
Proof.
  induction es as [|e es IH]; intros E F H; cbn [map exec0]; auto. unfold exec0_1. cbn [instr_of pinstr_of i_in i_out i_step]. rewrite (plain_read _ H). destruct (read0_many F (ins_of e)) as [xs|]; cbn [option_map]; [|exact I].
  rewrite step_plain. destruct (plain_of (kind_of e) xs) as [ys|]; cbn [option_map]; [|exact I]. pose proof (@plain_write (outs_of e) E F ys H) as HW.
  destruct (write0_many E _ _), (write0_many F _ _); try contradiction; [|exact I]. apply IH. exact HW.
Qed.
Lemma jrun_plain th j closed xs : jeval false th j closed (map (@AX A) xs) = option_map (map (@AX A)) (plain_run j closed xs).
Proof.
  rewrite jrun_eq, plain_run_eq. unfold runb, run0, init0. cbn [code_of pcode_of c_consts c_ins c_eqns c_outs].
  assert (HC : consts_of j closed = map (@AX A) (if closed then j_cs j else [])) by (unfold consts_of; destruct closed; reflexivity). rewrite HC.
  assert (H0 : plain_env (fun _ => None) (fun _ => None)) by (intros v; reflexivity).
  pose proof (@plain_write (j_cvs j) _ _ (if closed then j_cs j else []) H0) as H1. destruct (write0_many _ (j_cvs j) _) as [E1|], (write0_many (fun _ => None) (j_cvs j) (if closed then j_cs j else [])) as [F1|]; try contradiction; [|reflexivity].
  pose proof (@plain_write (j_ivs j) _ _ xs H1) as H2. destruct (write0_many E1 _ _) as [E2|], (write0_many F1 _ _) as [F2|]; try contradiction; [|reflexivity].
  pose proof (@plain_exec false th (j_es j) _ _ H2) as H3. destruct (exec0 E2 _) as [E3|], (exec0 F2 _) as [F3|]; try contradiction; [|reflexivity]. apply plain_read. exact H3.
Qed.

(* ---- C28 ---- *)
Lemma pjit_is_call th name j xs : nreg name = None -> step false th (KPjit name j) xs = run0 (code_at false th j) (map (@AX A) (j_cs j)) xs.
Proof.
  intros Hn. change (run0 (code_at false th j) (map (@AX A) (j_cs j)) xs) with (runb false (code_at false th j) (consts_of j true) xs). rewrite <- jrun_eq.
  cbn [step_of]. destruct (forallb _ xs) eqn:Hp; [|rewrite Hn; reflexivity].
  assert (Ex : xs = map (@AX A) (map (@aval A) xs)).
  { clear -Hp. induction xs as [|[a|x] xs IH]; cbn in *; try discriminate; auto. f_equal. apply IH. exact Hp. }
  rewrite Ex at 2. rewrite jrun_plain. reflexivity.
Qed.
Lemma instrs_small th es : (forall e, In e es -> small (kind_of e)) -> Forall2 (@same_instr (arg A)) (map (instr_at true th) es) (map (instr_at false th) es).
Proof.
  induction es as [|e es IH]; intros H; cbn [map]; constructor.
  - split; [reflexivity|]. split; [reflexivity|]. intros xs. cbn [instr_of i_step]. apply step_small. apply H. left. reflexivity.
  - apply IH. intros e' He'. apply H. right. exact He'.
Qed.
Lemma same_refl (es : list (instr (arg A))) : Forall2 (@same_instr (arg A)) es es.
Proof. induction es; constructor; auto. repeat split. Qed.
Lemma same_ren rho es es' : Forall2 (@same_instr (arg A)) es es' -> Forall2 (@same_instr (arg A)) (map (ren_instr rho) es) (map (ren_instr rho) es').
Proof. induction 1 as [|e e' es es' (H1 & H2 & H3) H IH]; cbn [map]; constructor; auto. split; [|split]; cbn [ren_instr i_in i_out i_step]; congruence. Qed.
Theorem pjit_inline th J closed args name j ins outs es1 es2 rho : smallj J -> nreg name = None -> inj rho ->
  j_es J = es1 ++ Eqn (KPjit name j) ins outs :: es2 ->
  (forall v w, In v (vars_code (code_at true th J)) -> v <> rho w) ->
  let inlined := Code (j_cvs J) (j_ivs J) (map (instr_at true th) es1 ++ splice rho (code_at true th j) (map (@AX A) (j_cs j)) (map (@plain_atom A) ins) outs ++ map (instr_at true th) es2) (map (@plain_atom A) (j_os J)) in
  few_reads inlined -> jeval true th J closed args = run inlined (consts_of J closed) args.
Proof.
  intros HS Hn Hi HE Hf inlined HF. rewrite (run_run0 _ _ HF). rewrite jrun_frees_nothing by exact HS. rewrite jrun_eq. unfold runb.
  assert (HK : forall e, In e (j_es J) -> small (kind_of e)).
  { intros e He. apply (proj2 HS). unfold subops. apply in_map_iff. exists e. split; [destruct e; reflexivity|exact He]. }
  assert (Hj : forall e, In e (j_es j) -> small (kind_of e)).
  { assert (Hp : small (KPjit name j)) by (apply (HK (Eqn (KPjit name j) ins outs)); rewrite HE; apply in_or_app; right; left; reflexivity). inversion Hp as [| |? ? _ HQ|]; subst. intros e He. apply HQ. unfold subops. apply in_map_iff. exists e. split; [destruct e; reflexivity|exact He]. }
  set (B := code_at false th j). set (cl := call B (map (@AX A) (j_cs j)) (map (@plain_atom A) ins) outs).
  set (C1 := Code (j_cvs J) (j_ivs J) (map (instr_at false th) es1 ++ cl :: map (instr_at false th) es2) (map (@plain_atom A) (j_os J))).
  transitivity (run0 C1 (consts_of J closed) args).
  { unfold code_of, C1. apply run0_ext. rewrite HE, map_app. cbn [map]. apply Forall2_app; [apply same_refl|]. constructor; [|apply same_refl]. split; [reflexivity|]. split; [reflexivity|].
    intros xs. cbn [instr_of kind_of i_step cl call]. apply pjit_is_call. exact Hn. }
  rewrite (@inline_run0 (arg A) rho C1 B (consts_of J closed) (map (@AX A) (j_cs j)) (map (@plain_atom A) ins) outs (map (instr_at false th) es1) (map (instr_at false th) es2) args Hi eq_refl).
  - unfold C1, inlined. cbn [c_consts c_ins c_outs]. symmetry. apply run0_ext. apply Forall2_app; [apply instrs_small; intros e He; apply HK; rewrite HE; apply in_or_app; auto|].
    apply Forall2_app; [|apply instrs_small; intros e He; apply HK; rewrite HE; apply in_or_app; right; right; exact He].
    unfold splice. constructor; [repeat split|]. constructor; [repeat split|]. apply Forall2_app; [|constructor; [repeat split|constructor]].
    apply same_ren. unfold B. cbn [code_of c_eqns]. apply instrs_small. exact Hj.
  - intros v w Hv. apply Hf. revert Hv. unfold vars_code, C1, code_of. cbn [c_consts c_ins c_eqns c_outs]. rewrite HE, map_app. cbn [map]. rewrite !flat_map_app. cbn [flat_map]. cbn [cl call i_in i_out instr_of ins_of outs_of].
    assert (Ef : forall b es, flat_map (fun e => vars_of (i_in e) ++ i_out e) (map (instr_at b th) es) = flat_map (fun e => vars_of (ins_of e) ++ outs_of e) es).
    { intros b es. induction es as [|e es IH]; [reflexivity|]. cbn [map flat_map]. rewrite IH. cbn [instr_of i_in i_out]. rewrite vars_plain. reflexivity. }
    rewrite !Ef. tauto.
Qed.

(* ---- C29 ---- *)
Definition same_idx (a b : arg A) : Prop := match a, b with AX _, AX _ => True | AL u, AL v => jidx (ljac u) = jidx (ljac v) | _, _ => False end.
Lemma set_same a b : same_idx b a -> set_idx a b = a.
Proof. destruct a as [u|x], b as [v|y]; cbn; intros H; auto. rewrite H. destruct u as [x [d i] l]. reflexivity. Qed.
Lemma set_same_all carry : forall c, Forall2 same_idx carry c -> map2 (@set_idx A) c carry = c.
Proof. induction carry as [|b l IH]; intros c H; inversion H; subst; cbn; [reflexivity|]. rewrite set_same by auto. f_equal. auto. Qed.
Lemma same_idx_refl l : Forall2 same_idx l l.
Proof. induction l as [|[u|x] l IH]; constructor; auto; cbn; auto. Qed.
Lemma same_idx_join a b c : Forall2 same_idx a b -> Forall2 same_idx a c -> Forall2 same_idx b c.
Proof.
  intros H. revert c. induction H as [|x y a b Hxy H IH]; intros c Hc; inversion Hc as [|? z ? ? Hxz Hc']; subst; constructor; auto.
  destruct x, y, z; cbn in *; auto; try contradiction. congruence.
Qed.
Section Scan.
Context (body : list (arg A) -> option (list (arg A))) (nc nk T : nat) (rv : bool) (xs : list (arg A)).
Definition s_cons := firstn nc xs. Definition s_carry := firstn nk (skipn nc xs). Definition s_inp := skipn (nc + nk) xs.
(* one iteration of the loop written out: the body applied to the constants, the current carry and row t of the scanned arrays *)
Definition iterate (c : list (arg A)) (t : nat) : option (list (arg A) * list (arg A)) :=
  match body (s_cons ++ c ++ map (fun x => AX (row (aval x) t)) s_inp) with None => None | Some r => Some (firstn nk r, skipn nk r) end.
Theorem scan_unrolled rs :
  (forall c t c' y, Forall2 same_idx s_carry c -> iterate c t = Some (c', y) -> all2 (@same_type A) s_carry c' = true -> Forall2 same_idx s_carry c') ->
  eval_scan body nc nk T rv xs = Some rs ->
  exists c ys, loop iterate (order T rv) s_carry = Some (c, ys) /\ rs = c ++ map (@stack_arg A RA) (cols (AX nd0) (unorder rv ys)) /\ length c = length s_carry /\
    (forall v, In v s_inp -> exists x, v = AX x).
Proof.
  intros HS H. unfold eval_scan in H. destruct (Nat.eqb T 0); [discriminate|]. cbv zeta in H. fold s_cons s_carry s_inp in H.
  destruct (forallb _ s_inp) eqn:Hp; cbn [negb] in H; [|discriminate].
  rewrite (set_same_all (same_idx_refl s_carry)) in H. fold (iterate s_carry 0%nat) in H.
  destruct (iterate s_carry 0%nat) as [[fc fy]|] eqn:E0; [|discriminate]. destruct (all2 (@carry_match A) s_carry fc) eqn:E1; cbn [negb] in H; [|discriminate].
  assert (T0 : all2 (@same_type A) s_carry fc = true).
  { clear -E1. revert fc E1. induction s_carry as [|a l IH]; intros [|b m] H; cbn in *; try discriminate; auto. apply andb_true_iff in H. destruct H as [H1 H2]. unfold carry_match in H1. apply andb_true_iff in H1. rewrite (proj1 H1). cbn. auto. }
  assert (F0 : Forall2 same_idx s_carry fc) by (apply (HS s_carry 0%nat fc fy); auto; apply same_idx_refl).
  assert (HL : forall ts c c' ys, Forall2 same_idx s_carry c ->
    loop (fun c t => match match body (s_cons ++ map2 (@set_idx A) c s_carry ++ map (fun x => AX (row (aval x) t)) s_inp) with None => None | Some r => Some (firstn nk r, skipn nk r) end with
      | None => None | Some (c', y) => if all2 (@same_type A) s_carry c' then Some (c', y) else None end) ts c = Some (c', ys) -> loop iterate ts c = Some (c', ys) /\ Forall2 same_idx s_carry c').
  { induction ts as [|t ts IH]; intros c c' ys Hc HL; cbn [loop] in *; [injection HL as <- <-; auto|]. rewrite (set_same_all Hc) in HL. fold (iterate c t) in HL.
    destruct (iterate c t) as [[c1 y]|] eqn:Ei; [|discriminate]. destruct (all2 (@same_type A) s_carry c1) eqn:Et; [|discriminate].
    assert (Hc1 : Forall2 same_idx s_carry c1) by (apply (HS c t c1 y); auto).
    match type of HL with match ?X with _ => _ end = _ => destruct X as [[c2 ys2]|] eqn:EL; [|discriminate] end. injection HL as <- <-. destruct (IH _ _ _ Hc1 EL) as [I1 I2]. rewrite I1. auto. }
  match type of H with match ?X with _ => _ end = _ => destruct X as [[c ys]|] eqn:EL; [|discriminate] end. destruct (HL _ _ _ _ (same_idx_refl s_carry) EL) as [I1 I2].
  injection H as <-. exists c, ys. split; [exact I1|]. split; [|split].
  - rewrite (@set_same_all fc c); auto. apply (same_idx_join F0 I2).
  - clear -I2. induction I2; cbn; congruence.
  - intros v Hv. rewrite forallb_forall in Hp. specialize (Hp v Hv). destruct v as [a|x]; [discriminate|]. exists x. reflexivity.
Qed.
End Scan.

(* ---- dense values stay dense ---- *)
Definition dense_arg (v : arg A) : Prop := match v with AL a => weak (ljac a) = false | AX _ => True end.
Definition dense_rule (r : @lrule A) : Prop := forall th xs ys, Forall dense_arg xs -> r th xs = Some ys -> Forall dense_arg ys.
Lemma dense_als xs : Forall dense_arg xs -> any_weak (als xs) = false.
Proof.
  induction 1 as [|v l Hv H IH]; [reflexivity|]. unfold any_weak in *. destruct v as [a|x]; [|exact IH]. change (als (AL a :: l)) with (a :: als l). cbn [existsb]. cbn in Hv. rewrite Hv, IH. reflexivity.
Qed.
Lemma jvp_fn_dense (F : fn A) (mg : mergefn) extra th fl axes (args : list (lapl A)) r : args <> [] -> any_weak args = false -> jvp_fn F mg extra th fl axes args = Some r -> weak (snd (fst r)) = false.
Proof.
  intros Hne Hw E. unfold jvp_fn in E. rewrite Hw in E. cbn in E. unfold parallel_jvp in E.
  assert (Ha : all_weak args = false).
  { destruct args as [|a l]; [congruence|]. cbn in Hw |- *. apply orb_false_iff in Hw. destruct Hw as [-> _]. reflexivity. }
  rewrite Ha in E. cbn in E. unfold dense_jvp in E.
  match type of E with bind ?x _ = _ => destruct x as [[[y g] l]|]; [|discriminate] end.
  cbn in E. injection E as <-. reflexivity.
Qed.
Lemma wrap_dense (R : rule A) c th xs v : Forall dense_arg xs -> wrap_fl R c th xs = Some v -> dense_arg v.
Proof.
  intros Hd H. pose proof (dense_als Hd) as Hw. unfold wrap_fl in H.
  destruct (sequence _) as [axs|]; [|discriminate]. cbn [bind] in H. destruct (sequence _) as [eaxs|]; [|discriminate]. cbn [bind] in H.
  destruct (als xs) as [|a l] eqn:Ea; [injection H as <-; exact I|].
  destruct (jvp_fn _ _ _ _ _ _ _) as [[[y g] lp]|] eqn:E1; [|discriminate]. cbn [bind] in H. destruct (jhj_trace _ _ _ _ _ _ _ _ _ _) as [h|]; [|discriminate]. cbn [bind] in H.
  destruct (bin radd lp h) as [l2|]; [|discriminate]. cbn [bind] in H.
  assert (Hg : weak g = false) by (apply (@jvp_fn_dense _ _ _ _ _ _ (a :: l) _ ltac:(discriminate) Hw E1)).
  destruct (r_float R); injection H as <-; [exact Hg|exact I].
Qed.
Lemma default_dense fs : dense_rule (default_rule c2r fs).
Proof.
  intros th xs ys Hd H. unfold default_rule in H. revert ys H. induction fs as [|f fs IH]; intros ys H; cbn in H; [injection H as <-; constructor|].
  destruct (wrap_fl _ c2r th xs) as [v|] eqn:Ev; [|discriminate]. destruct (sequence _) as [vs|]; [|discriminate]. cbn in H. injection H as <-. constructor; [apply (wrap_dense _ _ _ Hd Ev)|apply IH; reflexivity].
Qed.
Section Dense.
Context (Hreg : forall key r, reg key = Some r -> dense_rule r) (Hnreg : forall name r, nreg name = Some r -> dense_rule r).
Definition dense_env (E : @env0 (arg A)) : Prop := forall v a, E v = Some a -> dense_arg a.
Lemma dense_read E l xs : dense_env E -> read0_many E (map (@plain_atom A) l) = Some xs -> Forall dense_arg xs.
Proof.
  intros HE. revert xs. induction l as [|a l IH]; intros xs H; cbn [map read0_many] in H; [injection H as <-; constructor|].
  destruct (read0 E (plain_atom a)) as [x|] eqn:Ea; [|discriminate]. destruct (read0_many E _) as [ys|]; [|discriminate]. injection H as <-. constructor; [|apply IH; reflexivity].
  destruct a as [v|y]; cbn in Ea; [apply (HE _ _ Ea)|injection Ea as <-; exact I].
Qed.
Lemma dense_write vs : forall E xs E1, dense_env E -> Forall dense_arg xs -> write0_many E vs xs = Some E1 -> dense_env E1.
Proof.
  induction vs as [|v vs IH]; intros E [|x xs] E1 HE Hx H; cbn in H; try discriminate; [injection H as <-; exact HE|]. inversion Hx; subst. apply (IH (vset E v (Some x)) xs); auto.
  intros w a Hw. unfold vset in Hw. destruct (Nat.eqb w v); [injection Hw as <-; auto|apply (HE _ _ Hw)].
Qed.
Lemma dense_run th j : (forall k, In k (subops j) -> dense_rule (fun th xs => step false th k xs)) -> forall closed xs ys, Forall dense_arg xs -> jeval false th j closed xs = Some ys -> Forall dense_arg ys.
Proof.
  intros HK closed xs ys Hx H. rewrite jrun_eq in H. unfold runb, run0, init0 in H. cbn [code_of c_consts c_ins c_eqns c_outs] in H.
  destruct (write0_many _ (j_cvs j) _) as [E1|] eqn:W1; [|discriminate]. destruct (write0_many E1 _ xs) as [E2|] eqn:W2; [|discriminate].
  assert (D1 : dense_env E1).
  { refine (@dense_write _ _ _ _ _ _ W1); [intros v a Hn; discriminate Hn|]. unfold consts_of. destruct closed; [|constructor]. clear. induction (j_cs j); constructor; cbn; auto. }
  pose proof (@dense_write _ _ _ _ D1 Hx W2) as D2. clear W1 W2 D1 Hx. destruct (exec0 E2 _) as [E3|] eqn:X; [|discriminate]. apply (@dense_read E3 _ _ ) in H; auto. clear H.
  revert E2 D2 X. unfold subops in HK. induction (j_es j) as [|e es IH]; intros E2 D2 X; cbn [map exec0] in X; [injection X as <-; exact D2|].
  destruct (exec0_1 E2 _) as [E4|] eqn:X1; [|discriminate]. unfold exec0_1 in X1. cbn [instr_of i_in i_out i_step] in X1. destruct (read0_many E2 _) as [us|] eqn:R; [|discriminate]. destruct (step false th _ us) as [vs|] eqn:S; [|discriminate].
  apply (IH (fun k Hk => HK k (or_intror Hk)) E4); auto. apply (@dense_write _ _ _ _ D2) in X1; auto. apply (HK (kind_of e) ltac:(left; destruct e; reflexivity) th us vs); auto. apply (dense_read _ D2 R).
Qed.
Lemma Forall_firstn {X} (P : X -> Prop) n l : Forall P l -> Forall P (firstn n l).
Proof. intros H. revert n. induction H; intros [|n]; cbn; auto. Qed.
Lemma Forall_skipn {X} (P : X -> Prop) n l : Forall P l -> Forall P (skipn n l).
Proof. intros H. revert n. induction H; intros [|n]; cbn; auto. Qed.
Lemma Forall_app' {X} (P : X -> Prop) l m : Forall P l -> Forall P m -> Forall P (l ++ m).
Proof. intros H1 H2. apply Forall_app. auto. Qed.
Lemma dense_same a b : dense_arg a -> dense_arg b -> same_type a b = true -> same_idx a b.
Proof.
  destruct a as [u|x], b as [v|y]; cbn; intros H1 H2 H; auto; try discriminate. unfold weak in *. destruct (jidx (ljac u)); [discriminate|]. destruct (jidx (ljac v)); [discriminate|reflexivity].
Qed.
Lemma dense_same_all l : forall m, Forall dense_arg l -> Forall dense_arg m -> all2 (@same_type A) l m = true -> Forall2 same_idx l m.
Proof.
  induction l as [|a l IH]; intros [|b m] H1 H2 H; cbn in H; try discriminate; constructor; inversion H1; inversion H2; subst; apply andb_true_iff in H; destruct H; auto using dense_same.
Qed.
Lemma same_idx_dense l m : Forall2 same_idx l m -> Forall dense_arg l -> Forall dense_arg m.
Proof.
  induction 1 as [|a b l m Hab H IH]; intros Hd; constructor; inversion Hd; subst; auto. destruct a as [u|x], b as [v|y]; cbn in *; auto; try contradiction. unfold weak in *. rewrite <- Hab. auto.
Qed.
(* a scan over a dense carry is the unrolled loop, without any assumption on the body beyond density *)
Theorem scan_dense body nc nk T rv xs rs : Forall dense_arg xs -> (forall l r, Forall dense_arg l -> body l = Some r -> Forall dense_arg r) ->
  eval_scan body nc nk T rv xs = Some rs ->
  exists c ys, loop (iterate body nc nk xs) (order T rv) (s_carry nc nk xs) = Some (c, ys) /\ rs = c ++ map (@stack_arg A RA) (cols (AX nd0) (unorder rv ys)) /\
    length c = length (s_carry nc nk xs) /\ (forall v, In v (s_inp nc nk xs) -> exists x, v = AX x).
Proof.
  intros Hx Hb H. apply (@scan_unrolled body nc nk T rv xs rs); auto. intros c t c' y Hc Hi Ht. assert (Hd : Forall dense_arg (s_carry nc nk xs)) by (unfold s_carry; apply Forall_firstn, Forall_skipn, Hx).
  apply dense_same_all; auto. unfold iterate in Hi. destruct (body _) as [r|] eqn:Er; [|discriminate]. injection Hi as <- <-. apply Forall_firstn. apply (Hb _ _) in Er; auto.
  apply Forall_app'; [unfold s_cons; apply Forall_firstn, Hx|]. apply Forall_app'; [apply (same_idx_dense Hc Hd)|]. clear. induction (s_inp nc nk xs); constructor; cbn; auto.
Qed.
Lemma loop_dense body nc nk xs ts : Forall dense_arg xs -> (forall l r, Forall dense_arg l -> body l = Some r -> Forall dense_arg r) -> forall c0 c ys, Forall dense_arg c0 ->
  loop (iterate body nc nk xs) ts c0 = Some (c, ys) -> Forall dense_arg c /\ forall y, In y ys -> Forall dense_arg y.
Proof.
  intros Hx Hb. induction ts as [|t ts IH]; intros c0 c ys Hc H; cbn [loop] in H; [injection H as <- <-; split; [exact Hc|intros y []]|].
  unfold iterate at 1 in H. destruct (body _) as [r|] eqn:Er; [|discriminate]. apply Hb in Er.
  2:{ apply Forall_app'; [unfold s_cons; apply Forall_firstn, Hx|]. apply Forall_app'; [exact Hc|]. clear. induction (s_inp nc nk xs); constructor; cbn; auto. }
  destruct (loop _ ts _) as [[c2 ys2]|] eqn:EL; [|discriminate]. injection H as <- <-. destruct (IH _ _ _ (Forall_firstn nk Er) EL) as [I1 I2]. split; [exact I1|]. intros y [<-|Hy]; [apply Forall_skipn, Er|apply I2, Hy].
Qed.
Lemma dense_step k : dense_rule (fun th xs => step false th k xs).
Proof.
  apply (@opk_all A K (fun k => dense_rule (fun th xs => step false th k xs))); clear k.
  - intros key fs th xs ys Hx H. cbn [step_of] in H. destruct (forallb _ xs); [cbn in H; injection H as <-; rewrite map_map; induction fs; constructor; cbn; auto|]. unfold eval_prim in H. destruct (reg key) as [r|] eqn:Er; [apply (@Hreg key r Er th xs ys Hx H)|apply (@default_dense fs th xs ys Hx (missing_default _ _ _ _ H))].
  - intros fs th xs ys Hx H. cbn [step_of] in H. destruct (forallb _ xs); [cbn in H; injection H as <-; rewrite map_map; induction fs; constructor; cbn; auto|]. apply (@default_dense fs th xs ys Hx (list_default _ _ _ _ H)).
  - intros name j IH th xs ys Hx H. cbn [step_of] in H. destruct (forallb _ xs); [destruct (plain_of _ _) as [ps|]; [|discriminate]; cbn in H; injection H as <-; induction ps; constructor; cbn; auto|].
    destruct (nreg name) as [r|] eqn:Er; [apply (@Hnreg name r Er th xs ys Hx H)|]. apply (@dense_run th j IH true xs); auto.
  - intros nc nk T rv j IH th xs ys Hx H. cbn [step_of] in H. destruct (forallb _ xs); [destruct (plain_of _ _) as [ps|]; [|discriminate]; cbn in H; injection H as <-; induction ps; constructor; cbn; auto|].
    assert (Hb : forall l r, Forall dense_arg l -> jeval false th j false l = Some r -> Forall dense_arg r) by (intros l r; apply (@dense_run th j IH false)).
    destruct (@scan_dense _ _ _ _ _ _ _ Hx Hb H) as (c & yss & HL & -> & _ & _). destruct (@loop_dense _ _ _ _ _ Hx Hb _ _ _ ltac:(unfold s_carry; apply Forall_firstn, Forall_skipn, Hx) HL) as [D1 D2].
    apply Forall_app'; [exact D1|]. apply Forall_forall. intros v Hv. apply in_map_iff in Hv. destruct Hv as (cl & <- & Hc). unfold cols in Hc. apply in_map_iff in Hc. destruct Hc as (jj & <- & _).
    unfold stack_arg, col. destruct (unorder rv yss) as [|y l] eqn:Eu; [exact I|]. cbn [map hd]. assert (Hy : In y yss) by (unfold unorder in Eu; destruct rv; [apply in_rev; rewrite Eu; left; auto|rewrite Eu; left; auto]).
    apply D2 in Hy. destruct (nth jj y (AX nd0)) as [a|x] eqn:En; [|exact I]. cbn. rewrite Forall_forall in Hy. destruct (Nat.lt_ge_cases jj (length y)) as [Hl|Hl]; [|rewrite nth_overflow in En by exact Hl; discriminate].
    specialize (Hy _ (nth_In _ (AX nd0) Hl)). rewrite En in Hy. exact Hy.
Qed.
(* with dense seeds and rules that keep values dense every value of the program is dense *)
Theorem program_dense th j closed xs ys : smallj j -> Forall dense_arg xs -> jeval true th j closed xs = Some ys -> Forall dense_arg ys.
Proof. intros HS Hx H. rewrite jrun_frees_nothing in H by exact HS. apply (@dense_run th j (fun k _ => @dense_step k) closed xs); auto. Qed.
End Dense.
End Sc.
