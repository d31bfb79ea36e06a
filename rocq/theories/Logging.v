(* Logging.v : model of LoggingPrefix (utils.py:567-592) and C37. *)
From Coq Require Import List Arith Lia Bool.
Import ListNotations.
Set Implicit Arguments.

(* The root logger's attribute `handlers` is a reference (cur) to a list object in a heap; every LoggingPrefix object o has the attribute
   _old_handlers (slot o; None until the first __enter__); next is the first unused reference. *)
Record log := Log { cur : nat; heap : nat -> list nat; slot : nat -> option nat; next : nat }.
(* dict / heap update *)
Definition set {X} (f : nat -> X) (k : nat) (x : X) : nat -> X := fun i => if Nat.eqb i k then x else f i.
(* utils.py:580-585 __enter__: save the reference, install a new one-element list (the new handler is named by its list) *)
Definition enter (o : nat) (s : log) : log :=
  Log (next s) (set (heap s) (next s) [next s]) (set (slot s) o (Some (cur s))) (S (next s)).
(* utils.py:587-592 __exit__: (logs the exception, which does not change the handlers, and) puts the saved reference back; __exit__ returns
   None, so the exception goes on *)
Definition exit (o : nat) (s : log) : option log :=
  match slot s o with Some r => Some (Log r (heap s) (slot s) (next s)) | None => None end.
(* programs: pass, raise, logger.addHandler(h), s1; s2, with o: s, try: s1 except: s2, and a loop of n rounds *)
Inductive stmt := Pass | Raise | Add (h : nat) | Seq (a b : stmt) | With (o : nat) (b : stmt) | Try (a b : stmt) | Loop (n : nat) (b : stmt).
(* Python for loop *)
Fixpoint repeat_ (n : nat) (f : log -> option (log * bool)) (s : log) : option (log * bool) :=
  match n with 0 => Some (s, false) | S n' => match f s with Some (s', false) => repeat_ n' f s' | r => r end end.
(* the final state and whether an exception is propagating; None: __exit__ finds no saved handlers (cannot happen, see exec_total) *)
Fixpoint exec (p : stmt) (s : log) : option (log * bool) :=
  match p with
  | Pass => Some (s, false)
  | Raise => Some (s, true)
  | Add h => Some (Log (cur s) (set (heap s) (cur s) (heap s (cur s) ++ [h])) (slot s) (next s), false)
  | Seq a b => match exec a s with Some (s', false) => exec b s' | r => r end
  | With o b => match exec b (enter o s) with
                | Some (s', e) => match exit o s' with Some s'' => Some (s'', e) | None => None end
                | None => None end
  | Try a b => match exec a s with Some (s', true) => exec b s' | r => r end
  | Loop n b => repeat_ n (exec b) s
  end.
(* ---- specification ---- *)
Fixpoint objects (p : stmt) : list nat :=
  match p with Seq a b | Try a b => objects a ++ objects b | With o b => o :: objects b | Loop _ b => objects b | _ => [] end.
(* no object is entered again while it is active; interpreter.py:158,165,192,210 create a new object for every block *)
Fixpoint no_reentry (p : stmt) : Prop :=
  match p with Seq a b | Try a b => no_reentry a /\ no_reentry b | With o b => ~ In o (objects b) /\ no_reentry b | Loop _ b => no_reentry b | _ => True end.
(* the program without the with-lines, and whether it raises *)
Fixpoint raises (p : stmt) : bool :=
  match p with
  | Raise => true | Pass | Add _ => false | Seq a b => raises a || raises b | With _ b => raises b | Try a b => raises a && raises b
  | Loop n b => match n with 0 => false | _ => raises b end end.
(* the current handler list is allocated *)
Definition wf (s : log) : Prop := cur s < next s.

Lemma exec_spec p : no_reentry p -> forall s, wf s -> exists s', exec p s = Some (s', raises p) /\ cur s' = cur s /\ next s <= next s' /\
  (forall r, r < next s -> r <> cur s -> heap s' r = heap s r) /\ (forall o, ~ In o (objects p) -> slot s' o = slot s o).
Proof.
  induction p as [| |h|a IHa b IHb|o b IHb|a IHa b IHb|n b IHb]; intros HN s Hw; cbn [exec raises].
  - exists s. repeat split; auto.
  - exists s. repeat split; auto.
  - eexists. split; [reflexivity|]. cbn. repeat split; auto. intros r _ Hr. unfold set. destruct (Nat.eqb_spec r (cur s)); [contradiction|reflexivity].
  - destruct HN as [Ha Hb]. destruct (IHa Ha s Hw) as (s1 & E1 & C1 & N1 & H1 & S1). rewrite E1. cbn [objects]. destruct (raises a); cbn [orb].
    + exists s1. repeat split; auto. intros o Ho. apply S1. intros Hi. apply Ho, in_or_app. auto.
    + assert (Hw1 : wf s1) by (unfold wf in *; lia). destruct (IHb Hb s1 Hw1) as (s2 & E2 & C2 & N2 & H2 & S2). exists s2. split; [exact E2|]. split; [congruence|]. split; [lia|]. split.
      * intros r Hr Hc. rewrite H2 by (try congruence; lia). apply H1; auto.
      * intros o Ho. rewrite S2, S1; auto; intros Hi; apply Ho, in_or_app; auto.
  - destruct HN as [Ho Hb]. assert (Hw1 : wf (enter o s)) by (unfold wf, enter; cbn; lia). destruct (IHb Hb _ Hw1) as (s1 & E1 & C1 & N1 & H1 & S1). rewrite E1.
    unfold exit. rewrite (S1 o Ho). cbn [enter slot]. unfold set at 1. rewrite Nat.eqb_refl. eexists. split; [reflexivity|]. cbn [cur heap slot next]. cbn [enter next cur heap slot] in *. split; [reflexivity|]. split; [lia|]. split.
    + intros r Hr Hc. rewrite H1 by lia. unfold set. destruct (Nat.eqb_spec r (next s)); [lia|reflexivity].
    + intros o' Ho'. cbn [objects] in Ho'. rewrite S1 by (intros Hi; apply Ho'; right; exact Hi). unfold set. destruct (Nat.eqb_spec o' o) as [->|]; [exfalso; apply Ho'; left; reflexivity|reflexivity].
  - destruct HN as [Ha Hb]. destruct (IHa Ha s Hw) as (s1 & E1 & C1 & N1 & H1 & S1). rewrite E1. cbn [objects]. destruct (raises a); cbn [andb].
    + assert (Hw1 : wf s1) by (unfold wf in *; lia). destruct (IHb Hb s1 Hw1) as (s2 & E2 & C2 & N2 & H2 & S2). exists s2. split; [exact E2|]. split; [congruence|]. split; [lia|]. split.
      * intros r Hr Hc. rewrite H2 by (try congruence; lia). apply H1; auto.
      * intros o Ho. rewrite S2, S1; auto; intros Hi; apply Ho, in_or_app; auto.
    + exists s1. repeat split; auto. intros o Ho. apply S1. intros Hi. apply Ho, in_or_app. auto.
  - cbn [no_reentry] in HN. cbn [objects]. revert s Hw. induction n as [|n IHn]; intros s Hw; [exists s; repeat split; auto|]. cbn [repeat_]. destruct (IHb HN s Hw) as (s1 & E1 & C1 & N1 & H1 & S1). rewrite E1. destruct (raises b) eqn:Er.
    + exists s1. repeat split; auto.
    + assert (Hw1 : wf s1) by (unfold wf in *; lia). destruct (IHn s1 Hw1) as (s2 & E2 & C2 & N2 & H2 & S2). exists s2. split; [destruct n; exact E2|]. split; [congruence|]. split; [lia|]. split.
      * intros r Hr Hc. rewrite H2 by (try congruence; lia). apply H1; auto.
      * intros o Ho. rewrite S2, S1; auto.
Qed.

(* C37.  A with-block (whatever it does: nested blocks, exceptions, handlers added to the logger inside the block) leaves the root logger
   with the same handlers list object, with the same contents, as before; a program raises exactly when it raises without the blocks. *)
Theorem C37_handlers_restored : forall o b s, wf s -> no_reentry (With o b) ->
  exists s', exec (With o b) s = Some (s', raises b) /\ cur s' = cur s /\ forall r, r < next s -> heap s' r = heap s r.
Proof.
  intros o b s Hw [Ho Hb]. assert (Hw1 : wf (enter o s)) by (unfold wf, enter; cbn; lia). destruct (@exec_spec b Hb _ Hw1) as (s1 & E1 & C1 & N1 & H1 & S1). cbn [exec]. rewrite E1.
  unfold exit. rewrite (S1 o Ho). cbn [enter slot]. unfold set at 1. rewrite Nat.eqb_refl. eexists. split; [reflexivity|]. cbn [cur heap]. split; [reflexivity|]. intros r Hr. cbn [enter next cur heap] in H1. rewrite H1 by lia.
  unfold set. destruct (Nat.eqb_spec r (next s)); [lia|reflexivity].
Qed.
Theorem C37_any_program : forall p s, wf s -> no_reentry p -> exists s', exec p s = Some (s', raises p) /\ cur s' = cur s.
Proof. intros p s Hw Hn. destruct (@exec_spec p Hn s Hw) as (s' & E & C & _). exists s'. auto. Qed.
Print Assumptions C37_handlers_restored.
Print Assumptions C37_any_program.
(* example: a logger with one handler *)
Definition log0 : log := Log 0 (set (fun _ => []) 0 [100]) (fun _ => None) 1.
(* example program *)
Definition ex_prog : stmt := Seq (With 1 (Seq (Add 7) (Try (With 2 (Seq (Add 8) Raise)) (With 2 Pass)))) (Loop 3 (With 1 (With 3 Raise))).
Example C37_hypotheses_met : wf log0 /\ no_reentry ex_prog /\ raises ex_prog = true /\
  match exec ex_prog log0 with Some (s, e) => (cur s, heap s 0, heap s 1, e) = (0, [100], [1; 7], true) | None => False end.
Proof. split; [cbn; unfold wf, log0; cbn; lia|]. split; [cbn; repeat split; intros H; repeat destruct H as [H|H]; try discriminate H; auto|]. split; reflexivity. Qed.
(* the limits: an object entered again while it is active loses the original handlers, and so do overlapping blocks of two threads *)
Theorem C37_reentry_refuted : (exists s', exec (With 1 (With 1 Pass)) log0 = Some (s', false) /\ cur s' <> cur log0) /\
  (exists s', (match exit 1 (enter 2 (enter 1 log0)) with Some s => exit 2 s | None => None end) = Some s' /\ cur s' <> cur log0).
Proof. split; eexists; (split; [reflexivity|cbn; lia]). Qed.
Print Assumptions C37_reentry_refuted.
