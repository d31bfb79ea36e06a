(* InterpFacts.v : the interpreter: freeing is invisible at every nesting depth (C25), plain values stay plain (C27), nested jit is inlining (C28), scan (C29). *)
From Verif Require Export Interp.
Set Implicit Arguments.

(* ---- environments, generic ---- *)
Section Gen.
Context {V : Type}.
Definition same_instr (e e' : instr V) : Prop := i_in e = i_in e' /\ i_out e = i_out e' /\ forall xs, i_step e xs = i_step e' xs.
Lemma exec0_ext (es es' : list (instr V)) : Forall2 same_instr es es' -> forall E, exec0 E es = exec0 E es'.
Proof.
  induction 1 as [|e e' es es' [H1 [H2 H3]] H IH]; intros E; cbn [exec0]; [reflexivity|]. unfold exec0_1. rewrite H1, H2. destruct (read0_many E (i_in e')) as [xs|]; [|reflexivity].
  rewrite H3. destruct (i_step e' xs); [|reflexivity]. destruct (write0_many E (i_out e') l); auto.
Qed.
Lemma run0_ext c i es es' o (cs xs : list V) : Forall2 same_instr es es' -> run0 (Code c i es o) cs xs = run0 (Code c i es' o) cs xs.
Proof. intros H. unfold run0. change (init0 (Code c i es' o) cs xs) with (init0 (Code c i es o) cs xs). destruct (init0 (Code c i es o) cs xs); [|reflexivity]. cbn [c_eqns c_outs]. rewrite (exec0_ext H). reflexivity. Qed.
Lemma exec0_app (es es' : list (instr V)) E : exec0 E (es ++ es') = match exec0 E es with None => None | Some E1 => exec0 E1 es' end.
Proof. revert E. induction es as [|e es IH]; intros E; cbn [exec0 app]; [reflexivity|]. destruct (exec0_1 E e); auto. Qed.
Lemma write0_length vs : forall (E : env0) (xs : list V) E1, write0_many E vs xs = Some E1 -> length vs = length xs.
Proof. induction vs as [|v vs IH]; intros E [|x xs] E1 H; cbn in *; try discriminate; auto. f_equal. eapply IH; eauto. Qed.
Lemma write0_total vs : forall (E : env0) (xs : list V), length vs = length xs -> exists E1, write0_many E vs xs = Some E1.
Proof. induction vs as [|v vs IH]; intros E [|x xs] H; cbn in *; try discriminate; eauto. Qed.
Lemma write0_other vs : forall (E : env0) (xs : list V) E1 w, write0_many E vs xs = Some E1 -> ~ In w vs -> E1 w = E w.
Proof.
  induction vs as [|v vs IH]; intros E [|x xs] E1 w H Hw; cbn in *; try discriminate; [congruence|]. rewrite (IH _ _ _ _ H) by tauto. apply vset_ne. intros ->. tauto.
Qed.
(* environments that agree off a set of variables *)
Lemma read0_agree (S : var -> Prop) (E F : env0) (l : list (atom V)) : (forall v, ~ S v -> E v = F v) -> (forall v, In v (vars_of l) -> ~ S v) -> read0_many E l = read0_many F l.
Proof.
  intros HE. induction l as [|a l IH]; intros HS; cbn [read0_many]; [reflexivity|]. cbn [vars_of flat_map] in HS.
  assert (E1 : read0 E a = read0 F a). { destruct a as [v|x]; cbn [read0]; [|reflexivity]. apply HE. apply HS. apply in_or_app. left. left. reflexivity. }
  rewrite E1, IH; [reflexivity|]. intros v Hv. apply HS. apply in_or_app. right. exact Hv.
Qed.
Lemma write0_agree (S : var -> Prop) vs : forall (E F : env0) (xs : list V), (forall v, ~ S v -> E v = F v) ->
  match write0_many E vs xs, write0_many F vs xs with Some E1, Some F1 => forall v, ~ S v -> E1 v = F1 v | None, None => True | _, _ => False end.
Proof.
  induction vs as [|v vs IH]; intros E F [|x xs] H; cbn; auto. apply IH. intros w Hw. unfold vset. destruct (Nat.eqb w v); auto.
Qed.
Lemma exec0_agree (S : var -> Prop) (es : list (instr V)) : forall E F, (forall v, ~ S v -> E v = F v) -> (forall v, In v (reads es) -> ~ S v) ->
  match exec0 E es, exec0 F es with Some E1, Some F1 => forall v, ~ S v -> E1 v = F1 v | None, None => True | _, _ => False end.
Proof.
  induction es as [|e es IH]; intros E F H HS; cbn [exec0]; auto. cbn [reads flat_map] in HS. unfold exec0_1.
  rewrite (@read0_agree S E F (i_in e) H); [|intros v Hv; apply HS; apply in_or_app; auto]. destruct (read0_many F (i_in e)); auto. destruct (i_step e l); auto.
  pose proof (@write0_agree S (i_out e) E F l0 H) as HW. destruct (write0_many E (i_out e) l0), (write0_many F (i_out e) l0); auto; try contradiction. apply IH; auto. intros v Hv. apply HS. apply in_or_app. auto.
Qed.
(* renaming variables *)
Definition ren_atom (rho : var -> var) (a : atom V) : atom V := match a with AVar v => AVar (rho v) | ALit x => ALit x end.
Definition ren_instr (rho : var -> var) (e : instr V) : instr V := Instr (map (ren_atom rho) (i_in e)) (map rho (i_out e)) (i_step e).
Definition inj (rho : var -> var) : Prop := forall v w, rho v = rho w -> v = w.
Definition sim (rho : var -> var) (E0 E F : @env0 V) : Prop := (forall v, F (rho v) = E v) /\ (forall w, (forall v, w <> rho v) -> F w = E0 w).
Lemma sim_read rho E0 E F l : sim rho E0 E F -> read0_many F (map (ren_atom rho) l) = read0_many E l.
Proof.
  intros [H _]. induction l as [|a l IH]; cbn [map read0_many]; [reflexivity|]. rewrite IH. assert (Ea : read0 F (ren_atom rho a) = read0 E a) by (destruct a; cbn; auto). rewrite Ea. reflexivity.
Qed.
Lemma sim_write rho E0 vs : inj rho -> forall E F xs, sim rho E0 E F ->
  match write0_many E vs xs, write0_many F (map rho vs) xs with Some E1, Some F1 => sim rho E0 E1 F1 | None, None => True | _, _ => False end.
Proof.
  intros Hi. induction vs as [|v vs IH]; intros E F [|x xs] H; cbn [map write0_many]; auto. apply IH. destruct H as [H1 H2]. split.
  - intros w. unfold vset. destruct (Nat.eqb_spec w v) as [Ew|Hne]; [subst w; rewrite Nat.eqb_refl; reflexivity|]. destruct (Nat.eqb_spec (rho w) (rho v)) as [Ew|_]; [exfalso; apply Hne; apply Hi; exact Ew|]. apply H1.
  - intros w Hw. rewrite vset_ne by apply Hw. apply H2. exact Hw.
Qed.
Lemma sim_exec rho E0 es : inj rho -> forall E F, sim rho E0 E F ->
  match exec0 E es, exec0 F (map (ren_instr rho) es) with Some E1, Some F1 => sim rho E0 E1 F1 | None, None => True | _, _ => False end.
Proof.
  intros Hi. induction es as [|e es IH]; intros E F H; cbn [map exec0]; auto. unfold exec0_1. cbn [ren_instr i_in i_out i_step]. rewrite (sim_read (i_in e) H).
  destruct (read0_many E (i_in e)); auto. destruct (i_step e l); auto. pose proof (@sim_write rho E0 (i_out e) Hi E F l0 H) as HW.
  destruct (write0_many E (i_out e) l0), (write0_many F (map rho (i_out e)) l0); try contradiction; [apply IH; exact HW|exact I].
Qed.
(* assignment of several variables at once *)
Definition move (l : list (atom V)) (vs : list var) : instr V := Instr l vs (fun xs => Some xs).
Lemma read_lits (E : env0) (cs : list V) : read0_many E (map (fun x => ALit x) cs) = Some cs.
Proof. induction cs as [|c cs IH]; cbn; [reflexivity|]. rewrite IH. reflexivity. Qed.
(* the body of a call, spliced into the caller: constants and arguments are assigned to the renamed binders, the renamed equations run,
   the results are assigned to the variables of the call *)
Definition splice (rho : var -> var) (B : code V) (cs : list V) (ins : list (atom V)) (outs : list var) : list (instr V) :=
  move (map (fun x => ALit x) cs) (map rho (c_consts B)) :: move ins (map rho (c_ins B)) :: map (ren_instr rho) (c_eqns B) ++ [move (map (ren_atom rho) (c_outs B)) outs].
Definition call (B : code V) (cs : list V) (ins : list (atom V)) (outs : list var) : instr V := Instr ins outs (fun xs => run0 B cs xs).
Lemma exec_move (E : env0) l vs : exec0_1 E (move l vs) = match read0_many E l with None => None | Some xs => write0_many E vs xs end.
Proof. reflexivity. Qed.
Lemma exec_call (E : env0) B cs ins outs : exec0_1 E (call B cs ins outs) = match read0_many E ins with None => None | Some xs => match run0 B cs xs with None => None | Some ys => write0_many E outs ys end end.
Proof. reflexivity. Qed.
Lemma splice_exec rho B cs ins outs E : inj rho -> (forall v, E (rho v) = None) -> (forall v, In v (vars_of ins) -> forall w, v <> rho w) ->
  match exec0_1 E (call B cs ins outs), exec0 E (splice rho B cs ins outs) with
  | Some E1, Some F1 => forall w, (forall v, w <> rho v) -> E1 w = F1 w
  | None, None => True | _, _ => False end.
Proof.
  intros Hi Hfresh Hins. unfold splice. cbn [exec0]. rewrite exec_call, exec_move, read_lits. unfold run0, init0.
  assert (S0 : sim rho E (fun _ => None) E) by (split; auto). set (E0 := (fun _ : var => None) : env0) in *.
  pose proof (@sim_write rho E (c_consts B) Hi E0 E cs S0) as H1.
  destruct (write0_many E0 (c_consts B) cs) as [E1|] eqn:W1; destruct (write0_many E (map rho (c_consts B)) cs) as [F1|]; try contradiction.
  2:{ destruct (read0_many E ins); exact I. }
  rewrite exec_move.
  assert (R : read0_many F1 ins = read0_many E ins).
  { apply (@read0_agree (fun w => exists v, w = rho v)).
    - intros w Hw. apply H1. intros v Ev. apply Hw. exists v. exact Ev.
    - intros v Hv [w Ew]. apply (Hins v Hv w Ew). }
  rewrite R. destruct (read0_many E ins) as [xs|] eqn:RI; [|exact I].
  pose proof (@sim_write rho E (c_ins B) Hi E1 F1 xs H1) as H2. destruct (write0_many E1 (c_ins B) xs) as [E2|]; destruct (write0_many F1 (map rho (c_ins B)) xs) as [F2|]; try contradiction; [|exact I].
  rewrite exec0_app. pose proof (@sim_exec rho E (c_eqns B) Hi E2 F2 H2) as H3. destruct (exec0 E2 (c_eqns B)) as [E3|]; destruct (exec0 F2 (map (ren_instr rho) (c_eqns B))) as [F3|]; try contradiction; [|exact I].
  cbn [exec0]. rewrite exec_move, (sim_read (c_outs B) H3). destruct (read0_many E3 (c_outs B)) as [ys|]; [|exact I].
  pose proof (@write0_agree (fun w => exists v, w = rho v) outs E F3 ys) as H4.
  assert (H5 : forall v, ~ (exists v0, v = rho v0) -> E v = F3 v) by (intros w Hw; symmetry; apply H3; intros v Ev; apply Hw; exists v; exact Ev).
  specialize (H4 H5). destruct (write0_many E outs ys), (write0_many F3 outs ys); auto. intros w Hw. apply H4. intros [v Ev]. apply (Hw v Ev).
Qed.
Lemma exec0_keeps_none es : forall (E E1 : @env0 V) w, exec0 E es = Some E1 -> E w = None -> (forall e, In e es -> ~ In w (i_out e)) -> E1 w = None.
Proof.
  induction es as [|e es IH]; intros E E1 w H Hw Ho; cbn [exec0] in H; [congruence|]. destruct (exec0_1 E e) as [E2|] eqn:X; [|discriminate].
  apply (IH E2 E1 w H).
  - unfold exec0_1 in X. destruct (read0_many E (i_in e)); [|discriminate]. destruct (i_step e l); [|discriminate]. rewrite (@write0_other _ _ _ _ w X); auto. apply Ho. left. reflexivity.
  - intros e' He'. apply Ho. right. exact He'.
Qed.
(* variables a program mentions *)
Definition vars_code (C : code V) : list var := c_consts C ++ c_ins C ++ flat_map (fun e => vars_of (i_in e) ++ i_out e) (c_eqns C) ++ vars_of (c_outs C).
Theorem inline_run0 rho C B ccs cs ins outs es1 es2 args : inj rho -> c_eqns C = es1 ++ call B cs ins outs :: es2 ->
  (forall v w, In v (vars_code C) -> v <> rho w) ->
  run0 C ccs args = run0 (Code (c_consts C) (c_ins C) (es1 ++ splice rho B cs ins outs ++ es2) (c_outs C)) ccs args.
Proof.
  intros Hi HE Hf. unfold run0. change (init0 (Code (c_consts C) (c_ins C) (es1 ++ splice rho B cs ins outs ++ es2) (c_outs C)) ccs args) with (init0 C ccs args).
  assert (Hm : forall e, In e es1 \/ e = call B cs ins outs \/ In e es2 -> forall v w, In v (vars_of (i_in e)) \/ In v (i_out e) -> v <> rho w).
  { intros e He v w Hv. apply Hf. unfold vars_code. apply in_or_app. right. apply in_or_app. right. apply in_or_app. left. apply in_flat_map. exists e. split.
    - rewrite HE. apply in_or_app. cbn. destruct He as [H|[H|H]]; subst; auto.
    - apply in_or_app. exact Hv. }
  destruct (init0 C ccs args) as [E0|] eqn:EI; [|reflexivity]. cbn [c_eqns c_outs]. rewrite HE, !exec0_app. destruct (exec0 E0 es1) as [E1|] eqn:X1; [|reflexivity].
  assert (HN : forall v, E1 (rho v) = None).
  { intros v. apply (@exec0_keeps_none es1 E0 E1 (rho v) X1).
    - unfold init0 in EI. destruct (write0_many (fun _ => None) (c_consts C) ccs) as [Ec|] eqn:Wc; [|discriminate].
      assert (N2 : ~ In (rho v) (c_ins C)) by (intros H; apply (Hf (rho v) v); [unfold vars_code; rewrite !in_app_iff; tauto|reflexivity]).
      assert (N1 : ~ In (rho v) (c_consts C)) by (intros H; apply (Hf (rho v) v); [unfold vars_code; rewrite !in_app_iff; tauto|reflexivity]).
      rewrite (@write0_other _ _ _ _ (rho v) EI N2), (@write0_other _ _ _ _ (rho v) Wc N1). reflexivity.
    - intros e He Hin. apply (Hm e (or_introl He) (rho v) v); auto. }
  cbn [exec0]. pose proof (@splice_exec rho B cs ins outs E1 Hi HN) as HS.
  assert (HS' : forall v, In v (vars_of ins) -> forall w, v <> rho w) by (intros v Hv w; apply (Hm (call B cs ins outs) (or_intror (or_introl eq_refl))); left; exact Hv).
  specialize (HS HS'). rewrite exec0_app. destruct (exec0_1 E1 (call B cs ins outs)) as [E2|]; destruct (exec0 E1 (splice rho B cs ins outs)) as [F2|]; try contradiction; [|reflexivity].
  set (S := fun w => exists v, w = rho v).
  assert (HA : forall w, ~ S w -> E2 w = F2 w) by (intros w Hw; apply HS; intros v Ev; apply Hw; exists v; exact Ev).
  assert (HR : forall v, In v (reads es2) -> ~ S v).
  { intros v Hv [w Ew]. unfold reads in Hv. apply in_flat_map in Hv. destruct Hv as (e & He & Hv). apply (Hm e (or_intror (or_intror He)) v w); auto. }
  pose proof (@exec0_agree S es2 E2 F2 HA HR) as HX. destruct (exec0 E2 es2), (exec0 F2 es2); auto; try contradiction.
  apply (@read0_agree S); auto. intros v Hv [w Ew]. apply (Hf v w); auto. unfold vars_code. rewrite !in_app_iff. tauto.
Qed.
End Gen.

Section Jx.
Context {A : Type} {RA : CRing A} {K : Type}.
Context (reg : K -> option (@lrule A)) (nreg : nat -> option (@lrule A)) (c2r : bool).
Notation step := (step_of reg nreg c2r).
Notation jeval := (jrun reg nreg c2r).
Definition ins_of (e : @eqn A K) := match e with Eqn _ i _ => i end.
Definition outs_of (e : @eqn A K) := match e with Eqn _ _ o => o end.
Definition kind_of (e : @eqn A K) := match e with Eqn k _ _ => k end.
Definition instr_of (rc : bool) (th : Z) (e : @eqn A K) : instr (arg A) := Instr (map (@plain_atom A) (ins_of e)) (outs_of e) (step rc th (kind_of e)).
Definition code_of (rc : bool) (th : Z) (j : @jaxpr A K) : code (arg A) := Code (j_cvs j) (j_ivs j) (map (instr_of rc th) (j_es j)) (map (@plain_atom A) (j_os j)).
Definition consts_of (j : @jaxpr A K) (closed : bool) : list (arg A) := if closed then map (@AX A) (j_cs j) else [].
Lemma jrun_eq rc th j closed xs : jeval rc th j closed xs = runb rc (code_of rc th j) (consts_of j closed) xs.
Proof.
  destruct j as [cvs ivs cs es os]. unfold code_of, consts_of. cbn [j_cvs j_ivs j_cs j_es j_os jrun]. f_equal. f_equal. apply map_ext. intros [k i o]. reflexivity.
Qed.
Definition pinstr_of (e : @eqn A K) : instr (nd A) := Instr (ins_of e) (outs_of e) (plain_of (kind_of e)).
Definition pcode_of (j : @jaxpr A K) : code (nd A) := Code (j_cvs j) (j_ivs j) (map pinstr_of (j_es j)) (j_os j).
Lemma plain_run_eq j closed xs : plain_run j closed xs = run0 (pcode_of j) (if closed then j_cs j else []) xs.
Proof. destruct j as [cvs ivs cs es os]. unfold pcode_of. cbn [j_cvs j_ivs j_cs j_es j_os plain_run]. f_equal. f_equal. apply map_ext. intros [k i o]. reflexivity. Qed.

(* ---- C25: reference counting at every nesting depth ---- *)
(* no output variable is read more than 2^31-1 times *)
Definition few_readsj (j : @jaxpr A K) : Prop := forall v, In v (vars_of (j_os j)) -> (occ v (flat_map (fun e => vars_of (ins_of e)) (j_es j)) + occ v (vars_of (j_os j)) <= int32max)%Z.
Inductive small : @opk A K -> Prop :=
| small_prim key fs : small (KPrim key fs)
| small_custom fs : small (KCustom fs)
| small_pjit name j : few_readsj j -> (forall k, In k (subops j) -> small k) -> small (KPjit name j)
| small_scan nc nk T rv j : few_readsj j -> (forall k, In k (subops j) -> small k) -> small (KScan nc nk T rv j).
Definition smallj (j : @jaxpr A K) : Prop := few_readsj j /\ forall k, In k (subops j) -> small k.
Lemma vars_plain l : vars_of (map (@plain_atom A) l) = vars_of l.
Proof. induction l as [|[v|x] l IH]; cbn; auto. f_equal. exact IH. Qed.
Lemma reads_code rc th j : reads (c_eqns (code_of rc th j)) = flat_map (fun e => vars_of (ins_of e)) (j_es j).
Proof. unfold reads, code_of. cbn [c_eqns]. rewrite flat_map_concat_map, map_map, <- flat_map_concat_map. apply flat_map_ext. intros e. cbn [instr_of i_in]. apply vars_plain. Qed.
Lemma few_code rc th j : few_readsj j -> few_reads (code_of rc th j).
Proof. intros H v Hv. rewrite reads_code. unfold code_of in *. cbn [c_outs] in *. rewrite vars_plain in *. apply H. exact Hv. Qed.
Lemma loop_ext {V} (f g : list V -> nat -> option (list V * list V)) ts : (forall c t, f c t = g c t) -> forall c, loop f ts c = loop g ts c.
Proof. intros H. induction ts as [|t ts IH]; intros c; cbn; [reflexivity|]. rewrite H. destruct (g c t) as [[c' y]|]; [|reflexivity]. rewrite IH. reflexivity. Qed.
Lemma eval_scan_ext (b b' : list (arg A) -> option (list (arg A))) nc nk T rv xs : (forall l, b l = b' l) -> eval_scan b nc nk T rv xs = eval_scan b' nc nk T rv xs.
Proof.
  intros H. unfold eval_scan. destruct (Nat.eqb T 0); [reflexivity|]. destruct (negb _); [reflexivity|]. cbv zeta. rewrite H. destruct (b' _) as [r|]; [|reflexivity]. destruct (negb _); [reflexivity|].
  match goal with |- match ?X with _ => _ end = match ?Y with _ => _ end => assert (E : X = Y) end.
  { apply loop_ext. intros c t. rewrite H. reflexivity. }
  rewrite E. reflexivity.
Qed.
Lemma run_small th j : few_readsj j -> (forall k, In k (subops j) -> forall xs, step true th k xs = step false th k xs) ->
  forall closed xs, jeval true th j closed xs = jeval false th j closed xs.
Proof.
  intros HF HK closed xs. rewrite !jrun_eq. unfold runb. rewrite run_run0 by (apply few_code; exact HF). unfold code_of. apply run0_ext.
  unfold subops in HK. induction (j_es j) as [|e es IH]; cbn [map]; constructor.
  - split; [reflexivity|]. split; [reflexivity|]. intros ys. cbn [instr_of i_step]. apply HK. left. destruct e; reflexivity.
  - apply IH. intros k Hk. apply HK. right. exact Hk.
Qed.
Lemma step_small th k : small k -> forall xs, step true th k xs = step false th k xs.
Proof.
  apply (@opk_all A K (fun k => small k -> forall xs, step true th k xs = step false th k xs)); clear k.
  - reflexivity.
  - reflexivity.
  - intros name j IH H xs. inversion H as [| |? ? HF HK|]; subst. cbn [step_of]. destruct (forallb _ xs); [reflexivity|]. destruct (nreg name); [reflexivity|].
    apply run_small; auto.
  - intros nc nk T rv j IH H xs. inversion H as [| | |? ? ? ? ? HF HK]; subst. cbn [step_of]. destruct (forallb _ xs); [reflexivity|]. apply eval_scan_ext. intros l. apply run_small; auto.
Qed.
Theorem jrun_frees_nothing th j closed xs : smallj j -> jeval true th j closed xs = jeval false th j closed xs.
Proof. intros [HF HK]. apply run_small; auto. intros k Hk. apply step_small. auto. Qed.

(* ---- C27: plain values ---- *)
Lemma all_plain (xs : list (nd A)) : forallb (fun v : arg A => negb (is_al v)) (map (@AX A) xs) = true.
Proof. induction xs; cbn; auto. Qed.
Lemma aval_AX (xs : list (nd A)) : map (@aval A) (map (@AX A) xs) = xs.
Proof. rewrite map_map. cbn. apply map_id. Qed.
Lemma step_plain rc th k xs : step rc th k (map (@AX A) xs) = option_map (map (@AX A)) (plain_of k xs).
Proof. destruct k; cbn [step_of]; rewrite all_plain, aval_AX; reflexivity. Qed.
(* what depends on a derivative-carrying argument: data flow through the equations *)
Definition dep_atom (D : var -> bool) (a : atom (nd A)) : bool := match a with AVar v => D v | ALit _ => false end.
Definition dep_step (D : var -> bool) (e : @eqn A K) : var -> bool := let t := existsb (dep_atom D) (ins_of e) in fold_left (fun D v => vset D v t) (outs_of e) D.
Definition dep_init (j : @jaxpr A K) (args : list (arg A)) : var -> bool :=
  fold_left (fun D va => vset D (fst va) (snd va)) (combine (j_ivs j) (map (@is_al A) args)) (fun _ => false).
Definition depends (j : @jaxpr A K) (args : list (arg A)) : var -> bool := fold_left dep_step (j_es j) (dep_init j args).
(* E: the environment with derivatives, F: the one of the plain program *)
Definition agree (D : var -> bool) (E : @env0 (arg A)) (F : @env0 (nd A)) : Prop := forall v, D v = false -> E v = option_map (@AX A) (F v).
Lemma agree_read D E F l : agree D E F -> existsb (dep_atom D) l = false -> read0_many E (map (@plain_atom A) l) = option_map (map (@AX A)) (read0_many F l).
Proof.
  intros H. induction l as [|a l IH]; cbn [existsb map read0_many]; [reflexivity|]. rewrite orb_false_iff. intros [Ha Hl]. rewrite (IH Hl).
  assert (Ea : read0 E (plain_atom a) = option_map (@AX A) (read0 F a)) by (destruct a as [v|x]; cbn in *; auto). rewrite Ea. destruct (read0 F a); [|reflexivity]. destruct (read0_many F l); reflexivity.
Qed.
Lemma agree_write_plain vs : forall D E F xs E1 F1, agree D E F -> write0_many E vs (map (@AX A) xs) = Some E1 -> write0_many F vs xs = Some F1 -> agree (fold_left (fun D v => vset D v false) vs D) E1 F1.
Proof.
  induction vs as [|v vs IH]; intros D E F [|x xs] E1 F1 H HE HF; cbn in *; try discriminate; [injection HE as <-; injection HF as <-; exact H|]. apply (IH (vset D v false) (vset E v (Some (AX x))) (vset F v (Some x)) xs); auto.
  intros w Hw. unfold vset in *. destruct (Nat.eqb w v); [reflexivity|]. apply H. exact Hw.
Qed.
Lemma agree_write_any vs : forall D E F xs ys E1 F1, agree D E F -> write0_many E vs xs = Some E1 -> write0_many F vs ys = Some F1 -> agree (fold_left (fun D v => vset D v true) vs D) E1 F1.
Proof.
  induction vs as [|v vs IH]; intros D E F [|x xs] [|y ys] E1 F1 H HE HF; cbn in *; try discriminate; [injection HE as <-; injection HF as <-; exact H|]. apply (IH (vset D v true) (vset E v (Some x)) (vset F v (Some y)) xs ys); auto.
  intros w Hw. unfold vset in *. destruct (Nat.eqb w v); [discriminate|]. apply H. exact Hw.
Qed.
Lemma agree_exec rc th es : forall D E F E1 F1, agree D E F -> exec0 E (map (instr_of rc th) es) = Some E1 -> exec0 F (map pinstr_of es) = Some F1 -> agree (fold_left dep_step es D) E1 F1.
Proof.
  induction es as [|e es IH]; intros D E F E1 F1 H HE HF; cbn [map exec0 fold_left] in *; [injection HE as <-; injection HF as <-; exact H|].
  destruct (exec0_1 E (instr_of rc th e)) as [E2|] eqn:XE; [|discriminate]. destruct (exec0_1 F (pinstr_of e)) as [F2|] eqn:XF; [|discriminate].
  apply (IH _ E2 F2); auto. unfold exec0_1 in XE, XF. cbn [instr_of pinstr_of i_in i_out i_step] in XE, XF.
  destruct (read0_many F (ins_of e)) as [xs|] eqn:RF; [|discriminate]. destruct (plain_of (kind_of e) xs) as [ys|] eqn:PF; [|discriminate]. unfold dep_step.
  destruct (existsb (dep_atom D) (ins_of e)) eqn:T.
  - destruct (read0_many E _) as [us|]; [|discriminate]. destruct (step rc th (kind_of e) us) as [vs|]; [|discriminate]. apply (@agree_write_any _ D E F vs ys); auto.
  - rewrite (agree_read _ H T), RF in XE. cbn [option_map] in XE. rewrite step_plain, PF in XE. cbn [option_map] in XE. apply (@agree_write_plain _ D E F ys); auto.
Qed.
Lemma agree_init vs : forall D E F (args : list (arg A)) xs E1 F1, agree D E F -> Forall2 (fun v x => forall y, v = AX y -> x = y) args xs ->
  write0_many E vs args = Some E1 -> write0_many F vs xs = Some F1 -> agree (fold_left (fun D va => vset D (fst va) (snd va)) (combine vs (map (@is_al A) args)) D) E1 F1.
Proof.
  induction vs as [|v vs IH]; intros D E F args xs E1 F1 H HA HE HF; destruct args as [|a args]; cbn in *; try discriminate; destruct xs as [|x xs]; cbn in *; try discriminate; [injection HE as <-; injection HF as <-; exact H|].
  inversion HA as [|? ? ? ? Ha HA']; subst. apply (IH (vset D v (is_al a)) (vset E v (Some a)) (vset F v (Some x)) args xs); auto.
  intros w Hw. unfold vset in *. destruct (Nat.eqb w v); [|apply H; exact Hw]. destruct a as [a|y]; [discriminate|]. rewrite (Ha y eq_refl). reflexivity.
Qed.
Theorem independent_plain rc th j closed args xs rs ps : (rc = true -> smallj j) ->
  Forall2 (fun v x => forall y, v = AX y -> x = y) args xs ->
  jeval rc th j closed args = Some rs -> plain_run j closed xs = Some ps ->
  forall m a, nth_error (j_os j) m = Some a -> dep_atom (depends j args) a = false -> exists y, nth_error ps m = Some y /\ nth_error rs m = Some (AX y).
Proof.
  intros Hrc HA HR HP. assert (HR' : run0 (code_of false th j) (consts_of j closed) args = Some rs).
  { destruct rc; [rewrite jrun_frees_nothing in HR by auto|]; rewrite jrun_eq in HR; exact HR. }
  clear HR. rewrite plain_run_eq in HP. unfold run0 in *. destruct (init0 (code_of false th j) _ args) as [E0|] eqn:IE; [|discriminate]. destruct (init0 (pcode_of j) _ xs) as [F0|] eqn:IF; [|discriminate].
  unfold init0 in IE, IF. cbn [code_of pcode_of c_consts c_ins c_eqns c_outs] in *.
  destruct (write0_many _ (j_cvs j) (consts_of j closed)) as [Ec|] eqn:WE; [|discriminate]. destruct (write0_many (fun _ => None) (j_cvs j) (if closed then j_cs j else [])) as [Fc|] eqn:WF; [|discriminate].
  assert (AG0 : agree (fun _ => false) Ec Fc).
  { assert (HC : consts_of j closed = map (@AX A) (if closed then j_cs j else [])) by (unfold consts_of; destruct closed; reflexivity). rewrite HC in WE.
    assert (AGi : agree (fun _ => false) (fun _ => None) (fun _ => None)) by (intros v _; reflexivity).
    pose proof (@agree_write_plain _ _ _ _ _ _ _ AGi WE WF) as X. intros v _. apply X. clear. induction (j_cvs j) as [|w l IH] using rev_ind; cbn; [reflexivity|]. rewrite fold_left_app. cbn. unfold vset at 1. destruct (Nat.eqb v w); [reflexivity|exact IH]. }
  pose proof (@agree_init _ _ _ _ _ _ _ _ AG0 HA IE IF) as AG1. fold (dep_init j args) in AG1.
  destruct (exec0 E0 _) as [E1|] eqn:XE; [|discriminate]. destruct (exec0 F0 _) as [F1|] eqn:XF; [|discriminate].
  pose proof (@agree_exec false th _ _ _ _ _ _ AG1 XE XF) as AG2. fold (depends j args) in AG2. revert rs ps HR' HP.
  induction (j_os j) as [|b os IH]; intros rs ps HR HP m a Hm Ha; [destruct m; discriminate|]. cbn [map read0_many] in HR, HP.
  destruct (read0 E1 (plain_atom b)) as [u|] eqn:Eu; [|discriminate]. destruct (read0_many E1 _) as [us|] eqn:Eus; [|discriminate].
  destruct (read0 F1 b) as [w|] eqn:Ew; [|discriminate]. destruct (read0_many F1 os) as [ws|] eqn:Ews; [|discriminate]. injection HR as <-. injection HP as <-.
  destruct m as [|m]; cbn [nth_error] in *.
  - injection Hm as ->. exists w. split; [reflexivity|]. f_equal. destruct a as [v|x]; cbn in *; [|congruence]. rewrite (AG2 v Ha), Ew in Eu. cbn in Eu. congruence.
  - apply (IH us ws eq_refl eq_refl m a Hm Ha).
Qed.
End Jx.
