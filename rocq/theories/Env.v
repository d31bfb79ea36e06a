(* Env.v : the reference-counted variable environment of the interpreter (interpreter.py:31-77) and straight-line evaluation (interpreter.py:171-219). *)
From Verif Require Export Base.
From Coq Require Import List ZArith Lia Bool.
Import ListNotations.
Set Implicit Arguments.
Local Open Scope Z_scope.

(* jax.core.Var: variables are compared by identity *)
Definition var := nat.
Section Env.
Context {V : Type}.
(* jax.core.Atom: a variable or a literal with its value *)
Inductive atom := AVar (v : var) | ALit (x : V).
(* an equation: input atoms, output variables (a DropVar is a variable nobody reads), and the meaning of its primitive; None = an exception *)
Record instr := Instr { i_in : list atom; i_out : list var; i_step : list V -> option (list V) }.
(* constvars, invars, eqns, outvars *)
Record code := Code { c_consts : list var; c_ins : list var; c_eqns : list instr; c_outs : list atom }.
(* the variable of an atom, if it is one *)
Definition atom_var (a : atom) : list var := match a with AVar v => [v] | ALit _ => [] end.
(* the variables of a list of atoms *)
Definition vars_of (l : list atom) : list var := flat_map atom_var l.
(* dict assignment *)
Definition vset {X} (f : var -> X) (v : var) (x : X) : var -> X := fun w => if Nat.eqb w v then x else f w.

(* interpreter.py:31-35: env is a dict, reference_counter a defaultdict(int) (a deleted key reads as 0) *)
Record st := St { env : var -> option V; cnt : var -> Z }.
(* interpreter.py:59-67 read; a missing key raises KeyError *)
Definition read (s : st) (a : atom) : option (V * st) :=
  match a with
  | ALit x => Some (x, s)
  | AVar v => let c := cnt s v - 1 in
    match env s v with
    | None => None
    | Some x => Some (x, if Z.eqb c 0 then St (vset (env s) v None) (vset (cnt s) v 0) else St (env s) (vset (cnt s) v c))
    end
  end.
(* interpreter.py:69-71 write *)
Definition write (s : st) (v : var) (x : V) : st := if 0 <? cnt s v then St (vset (env s) v (Some x)) (cnt s) else s.
(* interpreter.py:73-74 read_many *)
Fixpoint read_many (s : st) (l : list atom) : option (list V * st) :=
  match l with
  | [] => Some ([], s)
  | a :: l' => match read s a with None => None | Some (x, s1) => match read_many s1 l' with None => None | Some (xs, s2) => Some (x :: xs, s2) end end
  end.
(* interpreter.py:76-77 write_many; safe_map asserts equal lengths *)
Fixpoint write_many (s : st) (vs : list var) (xs : list V) : option st :=
  match vs, xs with
  | [], [] => Some s
  | v :: vs', x :: xs' => write_many (write s v x) vs' xs'
  | _, _ => None
  end.
(* interpreter.py:41-55 the reference counter.  np.iinfo(np.int32).max = 2147483647. *)
Definition int32max : Z := 2147483647.
(* interpreter.py:41-55: reference_counter[v] += 1 *)
Definition incr (c : var -> Z) (v : var) : var -> Z := vset c v (c v + 1).
(* interpreter.py:41-55: the reference counter *)
Definition counts (C : code) : var -> Z :=
  let c1 := fold_left incr (c_ins C ++ c_consts C) (fun _ => 0) in
  let c2 := fold_left incr (flat_map (fun e => vars_of (i_in e)) (c_eqns C)) c1 in
  fold_left (fun c v => vset c v int32max) (vars_of (c_outs C)) c2.
(* interpreter.py:37-57 __init__ *)
Definition init (C : code) (consts args : list V) : option st :=
  match write_many (St (fun _ => None) (counts C)) (c_consts C) consts with
  | None => None
  | Some s => write_many s (c_ins C) args
  end.
(* interpreter.py:171-218 the main loop *)
Definition exec1 (s : st) (e : instr) : option st :=
  match read_many s (i_in e) with
  | None => None
  | Some (xs, s1) => match i_step e xs with None => None | Some ys => write_many s1 (i_out e) ys end
  end.
(* interpreter.py:171-218: all equations in order *)
Fixpoint exec (s : st) (es : list instr) : option st :=
  match es with [] => Some s | e :: es' => match exec1 s e with None => None | Some s1 => exec s1 es' end end.
(* interpreter.py:80-84, 171-219 *)
Definition run (C : code) (consts args : list V) : option (list V) :=
  match init C consts args with
  | None => None
  | Some s => match exec s (c_eqns C) with None => None | Some s1 => match read_many s1 (c_outs C) with None => None | Some (xs, _) => Some xs end end
  end.

(* ---- specification: evaluation that never frees anything ---- *)
Definition env0 := var -> option V.
(* specification: read without freeing *)
Definition read0 (E : env0) (a : atom) : option V := match a with ALit x => Some x | AVar v => E v end.
(* specification: read several atoms *)
Fixpoint read0_many (E : env0) (l : list atom) : option (list V) :=
  match l with [] => Some [] | a :: l' => match read0 E a, read0_many E l' with Some x, Some xs => Some (x :: xs) | _, _ => None end end.
(* specification: write several variables *)
Fixpoint write0_many (E : env0) (vs : list var) (xs : list V) : option env0 :=
  match vs, xs with [], [] => Some E | v :: vs', x :: xs' => write0_many (vset E v (Some x)) vs' xs' | _, _ => None end.
(* specification: one equation *)
Definition exec0_1 (E : env0) (e : instr) : option env0 :=
  match read0_many E (i_in e) with None => None | Some xs => match i_step e xs with None => None | Some ys => write0_many E (i_out e) ys end end.
(* specification: all equations *)
Fixpoint exec0 (E : env0) (es : list instr) : option env0 :=
  match es with [] => Some E | e :: es' => match exec0_1 E e with None => None | Some E1 => exec0 E1 es' end end.
(* specification: bind constants and arguments *)
Definition init0 (C : code) (consts args : list V) : option env0 :=
  match write0_many (fun _ => None) (c_consts C) consts with None => None | Some E => write0_many E (c_ins C) args end.
(* specification: the value of a jaxpr *)
Definition run0 (C : code) (consts args : list V) : option (list V) :=
  match init0 C consts args with None => None | Some E => match exec0 E (c_eqns C) with None => None | Some E1 => read0_many E1 (c_outs C) end end.

(* ---- how often a variable is read ---- *)
Definition occ (v : var) (l : list var) : Z := Z.of_nat (length (filter (Nat.eqb v) l)).
(* specification: every read of a variable by an equation *)
Definition reads (es : list instr) : list var := flat_map (fun e => vars_of (i_in e)) es.
(* every output variable is read at most 2^31-1 times *)
Definition few_reads (C : code) : Prop := forall v, In v (vars_of (c_outs C)) -> occ v (reads (c_eqns C)) + occ v (vars_of (c_outs C)) <= int32max.

Lemma occ_nil v : occ v [] = 0.
Proof. reflexivity. Qed.
Lemma occ_cons v w l : occ v (w :: l) = (if Nat.eqb v w then 1 else 0) + occ v l.
Proof. unfold occ. cbn. destruct (Nat.eqb v w); cbn [length]; lia. Qed.
Lemma occ_app v l m : occ v (l ++ m) = occ v l + occ v m.
Proof. unfold occ. rewrite filter_app, app_length, Nat2Z.inj_add. reflexivity. Qed.
Lemma occ_nonneg v l : 0 <= occ v l.
Proof. unfold occ. lia. Qed.
Lemma occ_In v l : In v l <-> 0 < occ v l.
Proof.
  induction l as [|w l IH]; [rewrite occ_nil; split; [intros []|lia]|]. rewrite occ_cons. pose proof (occ_nonneg v l). cbn [In]. destruct (Nat.eqb_spec v w) as [->|Hne]; [split; [lia|auto]|].
  rewrite <- IH. split; [|auto]. intros [E|E]; [congruence|exact E].
Qed.
Lemma vset_eq {X} (f : var -> X) v x : vset f v x v = x.
Proof. unfold vset. rewrite Nat.eqb_refl. reflexivity. Qed.
Lemma vset_ne {X} (f : var -> X) v x w : w <> v -> vset f v x w = f w.
Proof. intros H. unfold vset. rewrite (proj2 (Nat.eqb_neq w v) H). reflexivity. Qed.
Lemma fold_incr l : forall c v, fold_left incr l c v = c v + occ v l.
Proof.
  induction l as [|w l IH]; intros c v; cbn [fold_left]; [rewrite occ_nil; lia|]. rewrite IH, occ_cons. unfold incr, vset.
  destruct (Nat.eqb_spec v w) as [E|Hne]; [subst w; lia|lia].
Qed.
Lemma fold_max l : forall (c : var -> Z) v, fold_left (fun c v => vset c v int32max) l c v = if existsb (Nat.eqb v) l then int32max else c v.
Proof.
  induction l as [|w l IH]; intros c v; cbn [fold_left existsb]; [reflexivity|]. rewrite IH. unfold vset. destruct (existsb (Nat.eqb v) l); [rewrite orb_true_r; reflexivity|]. rewrite orb_false_r. reflexivity.
Qed.
Lemma existsb_occ v l : existsb (Nat.eqb v) l = (0 <? occ v l).
Proof.
  destruct (existsb (Nat.eqb v) l) eqn:E.
  - apply existsb_exists in E. destruct E as (w & Hw & E). apply Nat.eqb_eq in E. subst w. apply occ_In in Hw. symmetry. apply Z.ltb_lt. exact Hw.
  - symmetry. apply Z.ltb_ge. destruct (Z.ltb_spec 0 (occ v l)) as [H|H]; [|exact H]. exfalso. apply occ_In in H. rewrite <- not_true_iff_false in E. apply E. apply existsb_exists. exists v. rewrite Nat.eqb_refl. auto.
Qed.
Lemma counts_spec C v : counts C v = if 0 <? occ v (vars_of (c_outs C)) then int32max else occ v (c_ins C ++ c_consts C) + occ v (reads (c_eqns C)).
Proof. unfold counts. rewrite fold_max, existsb_occ, !fold_incr. fold (reads (c_eqns C)). destruct (0 <? _); lia. Qed.

(* ---- the invariant ---- *)
(* Before reading the atoms [todo] (in order; the inputs of the remaining equations, then the outputs):
   an output variable has been read int32max - cnt times; any other variable has exactly the reads that are left, plus one if it is an argument. *)
Section Inv.
Context (outs : list var) (base : var -> Z).  (* base = occurrences among invars and constvars *)
Definition cnt_ok (s : st) (todo : list var) : Prop := forall v,
  if 0 <? occ v outs then occ v todo <= cnt s v else cnt s v = base v + occ v todo.
(* invariant: live variables have their value *)
Definition env_sub (s : st) (E : env0) : Prop := forall v, 0 < cnt s v -> env s v = E v.
(* invariant: stored variables are live *)
Definition env_live (s : st) : Prop := forall v, env s v <> None -> 0 < cnt s v.
Hypothesis Hbase : forall v, 0 <= base v.

Lemma read_ok s E a todo : cnt_ok s (atom_var a ++ todo) -> env_sub s E -> env_live s ->
  match read s a with
  | None => read0 E a = None
  | Some (x, s1) => read0 E a = Some x /\ cnt_ok s1 todo /\ env_sub s1 E /\ env_live s1
  end.
Proof.
  intros HC HE HL. destruct a as [v|x]; cbn [read read0 atom_var app] in *; [|auto].
  assert (Hpos : 0 < cnt s v).
  { pose proof (HC v) as H. rewrite occ_cons, Nat.eqb_refl in H. pose proof (occ_nonneg v todo). pose proof (Hbase v). destruct (0 <? occ v outs); lia. }
  rewrite (HE v Hpos) in *. destruct (E v) as [x|] eqn:Ev; [|exact Ev || reflexivity]. split; [reflexivity|].
  assert (HC' : forall w, if 0 <? occ w outs then occ w todo <= vset (cnt s) v (cnt s v - 1) w else vset (cnt s) v (cnt s v - 1) w = base w + occ w todo).
  { intros w. pose proof (HC w) as H. rewrite occ_cons in H. unfold vset. destruct (Nat.eqb_spec w v) as [Ew|Hne]; [subst w|]; destruct (0 <? _); lia. }
  destruct (Z.eqb_spec (cnt s v - 1) 0) as [E0|E0].
  - rewrite E0 in HC'. split; [exact HC'|]. split.
    + intros w Hw. cbn [cnt env] in *. unfold vset in *. destruct (Nat.eqb_spec w v) as [Ew|Hne]; [subst w; lia|]. apply HE. exact Hw.
    + intros w Hw. cbn [cnt env] in *. unfold vset in *. destruct (Nat.eqb_spec w v) as [Ew|Hne]; [subst w; congruence|]. apply HL. exact Hw.
  - split; [exact HC'|]. split.
    + intros w Hw. cbn [cnt env] in *. unfold vset in Hw. destruct (Nat.eqb_spec w v) as [Ew|Hne]; [subst w|]; apply HE; auto.
    + intros w Hw. cbn [cnt env] in *. unfold vset. destruct (Nat.eqb_spec w v) as [Ew|Hne]; [subst w; lia|]. apply HL. exact Hw.
Qed.
Lemma read_many_ok E l : forall s todo, cnt_ok s (vars_of l ++ todo) -> env_sub s E -> env_live s ->
  match read_many s l with
  | None => read0_many E l = None
  | Some (xs, s1) => read0_many E l = Some xs /\ cnt_ok s1 todo /\ env_sub s1 E /\ env_live s1
  end.
Proof.
  induction l as [|a l IH]; intros s todo HC HE HL; cbn [read_many read0_many]; [auto|].
  cbn [vars_of flat_map] in HC. rewrite <- app_assoc in HC. pose proof (@read_ok s E a _ HC HE HL) as H. destruct (read s a) as [[x s1]|]; [|rewrite H; reflexivity].
  destruct H as (H1 & H2 & H3 & H4). rewrite H1. specialize (IH s1 todo H2 H3 H4). destruct (read_many s1 l) as [[xs s2]|]; [|rewrite IH; reflexivity].
  destruct IH as (I1 & I2 & I3 & I4). rewrite I1. auto.
Qed.
Lemma write_ok s E v x todo : cnt_ok s todo -> env_sub s E -> env_live s ->
  let s1 := write s v x in cnt_ok s1 todo /\ env_sub s1 (vset E v (Some x)) /\ env_live s1.
Proof.
  intros HC HE HL. unfold write. destruct (Z.ltb_spec 0 (cnt s v)) as [Hp|Hp]; cbn zeta.
  - split; [exact HC|]. split.
    + intros w Hw. cbn [env cnt] in *. unfold vset. destruct (Nat.eqb w v); auto.
    + intros w Hw. cbn [env cnt] in *. unfold vset in Hw. destruct (Nat.eqb_spec w v) as [Ew|Hne]; [subst w|]; auto.
  - split; [exact HC|]. split; [|exact HL]. intros w Hw. unfold vset. destruct (Nat.eqb_spec w v) as [Ew|Hne]; [subst w; lia|]. auto.
Qed.
Lemma write_many_ok todo vs : forall s E xs, cnt_ok s todo -> env_sub s E -> env_live s ->
  match write_many s vs xs with
  | None => write0_many E vs xs = None
  | Some s1 => exists E1, write0_many E vs xs = Some E1 /\ cnt_ok s1 todo /\ env_sub s1 E1 /\ env_live s1
  end.
Proof.
  induction vs as [|v vs IH]; intros s E xs HC HE HL; destruct xs as [|x xs]; cbn [write_many write0_many]; eauto.
  destruct (@write_ok s E v x todo HC HE HL) as (H1 & H2 & H3). apply IH; auto.
Qed.
Lemma exec1_ok s E e todo : cnt_ok s (vars_of (i_in e) ++ todo) -> env_sub s E -> env_live s ->
  match exec1 s e with
  | None => exec0_1 E e = None
  | Some s1 => exists E1, exec0_1 E e = Some E1 /\ cnt_ok s1 todo /\ env_sub s1 E1 /\ env_live s1
  end.
Proof.
  intros HC HE HL. unfold exec1, exec0_1. pose proof (@read_many_ok E (i_in e) s todo HC HE HL) as H. destruct (read_many s (i_in e)) as [[xs s1]|]; [|rewrite H; reflexivity].
  destruct H as (H1 & H2 & H3 & H4). rewrite H1. destruct (i_step e xs) as [ys|]; [|reflexivity]. apply write_many_ok; auto.
Qed.
Lemma exec_ok es : forall s E todo, cnt_ok s (reads es ++ todo) -> env_sub s E -> env_live s ->
  match exec s es with
  | None => exec0 E es = None
  | Some s1 => exists E1, exec0 E es = Some E1 /\ cnt_ok s1 todo /\ env_sub s1 E1 /\ env_live s1
  end.
Proof.
  induction es as [|e es IH]; intros s E todo HC HE HL; cbn [exec exec0]; [eauto|].
  cbn [reads flat_map] in HC. rewrite <- app_assoc in HC. pose proof (@exec1_ok s E e _ HC HE HL) as H. destruct (exec1 s e) as [s1|]; [|rewrite H; reflexivity].
  destruct H as (E1 & H1 & H2 & H3 & H4). rewrite H1. apply IH; auto.
Qed.
End Inv.

Lemma init_ok C consts args : few_reads C -> let outs := vars_of (c_outs C) in let base := fun v => occ v (c_ins C ++ c_consts C) in
  match init C consts args with
  | None => init0 C consts args = None
  | Some s => exists E, init0 C consts args = Some E /\ cnt_ok outs base s (reads (c_eqns C) ++ outs) /\ env_sub s E /\ env_live s
  end.
Proof.
  intros HF outs base. unfold init, init0.
  assert (HC : cnt_ok outs base (St (fun _ => None) (counts C)) (reads (c_eqns C) ++ outs)).
  { intros v. cbn [cnt]. rewrite counts_spec, occ_app. fold outs. destruct (Z.ltb_spec 0 (occ v outs)) as [H|H].
    - apply HF. apply occ_In. exact H.
    - pose proof (occ_nonneg v outs). unfold base. lia. }
  assert (HE : env_sub (St (fun _ => None) (counts C)) (fun _ => None)) by (intros v _; reflexivity).
  assert (HL : env_live (St (fun _ => None) (counts C))) by (intros v H; cbn in H; congruence).
  pose proof (@write_many_ok outs base _ (c_consts C) _ _ consts HC HE HL) as H. destruct (write_many _ (c_consts C) consts) as [s1|]; [|rewrite H; reflexivity].
  destruct H as (E1 & H1 & H2 & H3 & H4). rewrite H1. apply write_many_ok; auto.
Qed.
(* freeing variables never changes the result *)
Theorem run_run0 C consts args : few_reads C -> run C consts args = run0 C consts args.
Proof.
  intros HF. unfold run, run0. pose proof (@init_ok C consts args HF) as H. cbn zeta in H. destruct (init C consts args) as [s|]; [|rewrite H; reflexivity].
  destruct H as (E & H1 & H2 & H3 & H4). rewrite H1. set (outs := vars_of (c_outs C)) in *. set (base := fun v => occ v (c_ins C ++ c_consts C)) in *.
  assert (Hb : forall v, 0 <= base v) by (intros v; apply occ_nonneg).
  pose proof (@exec_ok outs base Hb (c_eqns C) s E outs H2 H3 H4) as H. destruct (exec s (c_eqns C)) as [s1|]; [|rewrite H; reflexivity].
  destruct H as (E1 & K1 & K2 & K3 & K4). rewrite K1. assert (K2' : cnt_ok outs base s1 (vars_of (c_outs C) ++ [])) by (rewrite app_nil_r; exact K2).
  pose proof (@read_many_ok outs base Hb E1 (c_outs C) s1 [] K2' K3 K4) as H. destruct (read_many s1 (c_outs C)) as [[xs s2]|]; [|rewrite H; reflexivity]. destruct H as [H _]. rewrite H. reflexivity.
Qed.
(* what is stored after any prefix of the equations *)
Theorem env_contents C consts args es1 es2 s : few_reads C -> c_eqns C = es1 ++ es2 ->
  (match init C consts args with None => None | Some s0 => exec s0 es1 end) = Some s ->
  exists E, (match init0 C consts args with None => None | Some E0 => exec0 E0 es1 end) = Some E /\
  forall v, let needed := In v (c_ins C ++ c_consts C) \/ In v (vars_of (c_outs C)) \/ In v (reads es2) in
    (needed -> env s v = E v) /\ (~ needed -> env s v = None).
Proof.
  intros HF HE H. pose proof (@init_ok C consts args HF) as HI. cbn zeta in HI. destruct (init C consts args) as [s0|]; [|discriminate].
  destruct HI as (E & H1 & H2 & H3 & H4). rewrite H1. set (outs := vars_of (c_outs C)) in *. set (base := fun v => occ v (c_ins C ++ c_consts C)) in *.
  assert (Hb : forall v, 0 <= base v) by (intros v; apply occ_nonneg).
  assert (ER : reads (c_eqns C) = reads es1 ++ reads es2) by (unfold reads; rewrite HE, flat_map_app; reflexivity). rewrite ER, <- app_assoc in H2.
  pose proof (@exec_ok outs base Hb es1 s0 E _ H2 H3 H4) as K. rewrite H in K. destruct K as (E1 & K1 & K2 & K3 & K4). exists E1. split; [exact K1|]. intros v.
  pose proof (K2 v) as Hc. rewrite occ_app in Hc. cbn zeta. rewrite !occ_In. fold outs (base v). pose proof (occ_nonneg v outs). pose proof (occ_nonneg v (reads es2)). pose proof (Hb v). split.
  - intros Hn. apply K3. destruct (Z.ltb_spec 0 (occ v outs)); unfold base in *; lia.
  - intros Hn. destruct (env s v) eqn:Ev; [|reflexivity]. exfalso. apply Hn. assert (Hp : 0 < cnt s v) by (apply K4; congruence). destruct (Z.ltb_spec 0 (occ v outs)); unfold base in *; lia.
Qed.
End Env.
Arguments atom V : clear implicits.
Arguments instr V : clear implicits.
Arguments code V : clear implicits.
