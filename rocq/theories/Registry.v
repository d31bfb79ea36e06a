(* Registry.v : model of the rule registry, wrapped_functions.py:297 and 445-498. *)
From Coq Require Import List Bool.
Import ListNotations.
Set Implicit Arguments.

Section Registry.
(* keys are primitives or function names; rules are arbitrary values *)
Context {P N V : Type} (Pdec : forall a b : P, {a = b} + {a <> b}) (Ndec : forall a b : N, {a = b} + {a <> b}).
(* wrapped_functions.py:297, 444: jax.core.Primitive | str *)
Inductive rkey := RPrim (p : P) | RName (n : N).
(* equality of keys *)
Definition keqb (a b : rkey) : bool :=
  match a, b with RPrim p, RPrim q => if Pdec p q then true else false | RName m, RName n => if Ndec m n then true else false | _, _ => false end.
(* wrapped_functions.py:297 _LAPLACE_FN_REGISTRY, a Python dict *)
Definition dict := rkey -> option V.
(* wrapped_functions.py:444-448 register_function: dict assignment *)
Definition register (k : rkey) (v : V) (R : dict) : dict := fun k' => if keqb k' k then Some v else R k'.
(* wrapped_functions.py:451-455 deregister_function: del raises KeyError (None) for a missing key *)
Definition deregister (k : rkey) (R : dict) : option dict := match R k with None => None | Some _ => Some (fun k' => if keqb k' k then None else R k') end.
(* wrapped_functions.py:458-462 is_registered *)
Definition is_registered (k : rkey) (R : dict) : bool := match R k with Some _ => true | None => false end.
(* wrapped_functions.py:477-498 get_laplacian: a rule, None, or a TypeError *)
Inductive found := Rule_ (v : V) | NoRule | TypeErr.
Context (default : P -> V).   (* wrap_forward_laplacian(primitive.bind) *)
Definition get_laplacian (k : rkey) (wrap_if_missing : bool) (R : dict) : found :=
  match R k with
  | Some v => Rule_ v
  | None => if wrap_if_missing then match k with RPrim p => Rule_ (default p) | RName _ => TypeErr end else NoRule
  end.
(* a history of calls *)
Inductive event := Reg (k : rkey) (v : V) | Dereg (k : rkey).
(* the key of a call *)
Definition ekey (e : event) : rkey := match e with Reg k _ => k | Dereg k => k end.
(* one call *)
Definition apply1 (e : event) (R : dict) : option dict := match e with Reg k v => Some (register k v R) | Dereg k => deregister k R end.
(* a sequence of calls; None: one of them raised *)
Fixpoint replay (R : dict) (h : list event) : option dict := match h with [] => Some R | e :: h' => match apply1 e R with None => None | Some R1 => replay R1 h' end end.

Lemma keqb_eq a b : keqb a b = true <-> a = b.
Proof.
  destruct a as [p|m], b as [q|n]; cbn; split; try discriminate.
  - destruct (Pdec p q); congruence.
  - intros [= ->]. destruct (Pdec q q); congruence.
  - destruct (Ndec m n); congruence.
  - intros [= ->]. destruct (Ndec n n); congruence.
Qed.
Lemma keqb_refl a : keqb a a = true. Proof. apply keqb_eq. reflexivity. Qed.
Lemma keqb_ne a b : a <> b -> keqb a b = false.
Proof. intros H. destruct (keqb a b) eqn:E; auto. apply keqb_eq in E. contradiction. Qed.
Lemma replay_app h1 : forall R h2, replay R (h1 ++ h2) = match replay R h1 with None => None | Some R1 => replay R1 h2 end.
Proof. induction h1 as [|e h1 IH]; intros R h2; cbn; [reflexivity|]. destruct (apply1 e R); auto. Qed.
Lemma replay_other h : forall R R1 k, replay R h = Some R1 -> (forall e, In e h -> ekey e <> k) -> R1 k = R k.
Proof.
  induction h as [|e h IH]; intros R R1 k H Hk; cbn in H; [congruence|]. destruct (apply1 e R) as [R2|] eqn:E; [|discriminate].
  rewrite (IH R2 R1 k H) by (intros e' He'; apply Hk; right; exact He'). assert (Hne : keqb k (ekey e) = false) by (apply keqb_ne; intros X; apply (Hk e (or_introl eq_refl)); congruence).
  destruct e as [k' v|k']; cbn in E, Hne.
  - injection E as <-. unfold register. rewrite Hne. reflexivity.
  - unfold deregister in E. destruct (R k'); [|discriminate]. injection E as <-. rewrite Hne. reflexivity.
Qed.
(* lookup after any history *)
Theorem latest_rule R h1 k v h2 R1 wrap : replay R (h1 ++ Reg k v :: h2) = Some R1 -> (forall e, In e h2 -> ekey e <> k) ->
  is_registered k R1 = true /\ get_laplacian k wrap R1 = Rule_ v.
Proof.
  intros H Hk. rewrite replay_app in H. destruct (replay R h1) as [R2|]; [|discriminate]. cbn [replay apply1] in H. apply (replay_other _ _ H) in Hk.
  unfold register in Hk. rewrite keqb_refl in Hk. unfold is_registered, get_laplacian. rewrite Hk. auto.
Qed.
Theorem deregistered R h1 k h2 R1 wrap : replay R (h1 ++ Dereg k :: h2) = Some R1 -> (forall e, In e h2 -> ekey e <> k) ->
  is_registered k R1 = false /\
  get_laplacian k wrap R1 = match wrap, k with true, RPrim p => Rule_ (default p) | true, RName _ => TypeErr | false, _ => NoRule end.
Proof.
  intros H Hk. rewrite replay_app in H. destruct (replay R h1) as [R2|]; [|discriminate]. cbn [replay apply1] in H. unfold deregister in H. destruct (R2 k); [|discriminate]. apply (replay_other _ _ H) in Hk.
  rewrite keqb_refl in Hk. unfold is_registered, get_laplacian. rewrite Hk. split; [reflexivity|]. destruct wrap, k; reflexivity.
Qed.
Theorem untouched R h k R1 wrap : replay R h = Some R1 -> (forall e, In e h -> ekey e <> k) ->
  is_registered k R1 = is_registered k R /\ get_laplacian k wrap R1 = get_laplacian k wrap R.
Proof. intros H Hk. apply (replay_other _ _ H) in Hk. unfold is_registered, get_laplacian. rewrite Hk. auto. Qed.
(* the only failure: deregistering a key that is not registered at that moment *)
Theorem replay_fails R h : replay R h = None <-> exists h1 k h2 R1, h = h1 ++ Dereg k :: h2 /\ replay R h1 = Some R1 /\ is_registered k R1 = false.
Proof.
  revert R. induction h as [|e h IH]; intros R; cbn.
  - split; [discriminate|]. intros (h1 & k & h2 & R1 & E & _). destruct h1; discriminate.
  - destruct (apply1 e R) as [R2|] eqn:E.
    + rewrite IH. split.
      * intros (h1 & k & h2 & R1 & -> & H1 & H2). exists (e :: h1), k, h2, R1. cbn. rewrite E. auto.
      * intros (h1 & k & h2 & R1 & EE & H1 & H2). destruct h1 as [|e' h1]; cbn in EE; injection EE as -> ->.
        -- cbn in H1. injection H1 as <-. cbn in E. unfold deregister in E. unfold is_registered in H2. destruct (R k); discriminate.
        -- cbn in H1. rewrite E in H1. exists h1, k, h2, R1. auto.
    + split; [|reflexivity]. intros _. destruct e as [k v|k]; cbn in E; [discriminate|]. exists [], k, h, R. cbn. split; [reflexivity|]. split; [reflexivity|]. unfold deregister in E. unfold is_registered. destruct (R k); [discriminate|reflexivity].
Qed.
End Registry.
