(* Check.v : decision procedures for the specification predicates on concrete integer arrays; only used to show
   that concrete examples meet the hypotheses of the theorems.  Models no code. *)
From Verif Require Export OboFacts Prims.
Set Implicit Arguments.

(* well-formedness of a Jacobian, decided (for examples) *)
Definition jwfb (n : nat) (s : shape) (J : jac Z) : bool :=
  match sh (jdata J) with
  | [] => false
  | k :: s1 => sheq s1 s && match jidx J with
      | None => (k <=? n)%nat
      | Some m => sheq (sh m) (k :: s) && forallb (fun i => ((-1 <=? at_ m i) && (at_ m i <? Z.of_nat n) &&
                   (negb (at_ m i <? 0) || (at_ (jdata J) i =? 0)))%Z) (allix (k :: s))
      end
  end.
Lemma sheq_eq s t : sheq s t = true -> s = t.
Proof. unfold sheq. destruct (list_eq_dec Nat.eq_dec s t); congruence. Qed.
Lemma jwfb_ok n s J : jwfb n s J = true -> jwf n s J.
Proof.
  unfold jwfb, jwf. destruct (sh (jdata J)) as [|k s'] eqn:E; [discriminate|].
  intros H. apply andb_true_iff in H. destruct H as [H1 H2]. apply sheq_eq in H1. subst s'. exists k. split; auto.
  destruct (jidx J) as [m|].
  - apply andb_true_iff in H2. destruct H2 as [H2 H3]. apply sheq_eq in H2. split; auto.
    intros r p Hr Hp. rewrite forallb_forall in H3. specialize (H3 (r :: p)).
    assert (Hi : In (r :: p) (allix (k :: s))) by (apply allix_spec, inb_cons; auto).
    apply H3 in Hi. cbn. split; [lia|]. intros Hn. cbn in Hi. lia.
  - apply Nat.leb_le in H2. auto.
Qed.
(* well-formedness of a FwdLaplArray, decided (for examples) *)
Definition awfb (n : nat) (a : lapl Z) : bool := jwfb n (sh (lx a)) (ljac a) && sheq (sh (llap a)) (sh (lx a)).
Lemma awfb_ok n a : awfb n a = true -> awf n a.
Proof. unfold awfb. intros H. apply andb_true_iff in H. destruct H. split; [apply jwfb_ok|apply sheq_eq]; auto. Qed.
Lemma forall_awf n l : forallb (awfb n) l = true -> forall a, In a l -> awf n a.
Proof. intros H a Ha. rewrite forallb_forall in H. apply awfb_ok; auto. Qed.
Lemma jrow1b_ok (J : jac Z) : (1 <=? rows (jdata J))%nat = true -> jrow1 J.
Proof. intros H _. apply Nat.leb_le; auto. Qed.
(* the value, the index tensor and the data of a propagation result, row-major *)
Definition show (r : option (result Z)) : option (list Z * option (list Z) * list Z * list Z) :=
  match r with None => None | Some (y, g, l) => Some (flat y, option_map flat (jidx g), flat (jdata g), flat l) end.
(* literal triples: sparse with k rows / dense with k rows *)
Definition sp (s : shape) (x : list Z) (k : nat) (idx data : list Z) (l : list Z) : lapl Z :=
  Lapl (arr s x) (Jac (arr (k :: s) data) (Some (arr (k :: s) idx))) (arr s l).
(* example value with dense Jacobian *)
Definition de (s : shape) (x : list Z) (k : nat) (data : list Z) (l : list Z) : lapl Z :=
  Lapl (arr s x) (Jac (arr (k :: s) data) None) (arr s l).
(* the result of a computation that does not raise *)
Definition got (o : option (result Z)) : result Z := match o with Some r => r | None => (nd0, Jac nd0 None, nd0) end.
Lemma got_ok o : match o with Some _ => true | None => false end = true -> o = Some (got o).
Proof. destruct o; cbn; congruence. Qed.
Ltac vmr := vm_compute; reflexivity.
Lemma step_ok_jent n (f : op Z) args r i p : step_ok n f args r -> inb p (sh (o_fwd f (xs_of args))) ->
  jent (snd (fst r)) i p = dspec f args i p.
Proof. destruct r as [[y g] l]. intros (_ & _ & _ & H & _). apply H. Qed.
