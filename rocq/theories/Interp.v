(* Interp.v : model of folx/interpreter.py: evaluation of jaxprs with forward Laplacian values (nested jit, scan, custom_jvp_call, registry). *)
From Verif Require Export Rules Env.
Set Implicit Arguments.

Section Interp.
Context {A : Type} {RA : CRing A} {K : Type}.   (* K: the registry keys, i.e. a primitive with its params *)
Open Scope cr_scope.

(* A registered rule: (args, kwargs, sparsity_threshold) -> outputs; kwargs are fixed by the equation. *)
Definition lrule := Z -> list (arg A) -> option (list (arg A)).
(* jaxprs.  A primitive is given by its registry key (with its params) and the functions it computes, one per output. *)
Inductive opk :=
| KPrim (key : K) (fs : list (op A))
| KCustom (fs : list (op A))
| KPjit (name : nat) (j : jaxpr)
| KScan (nconst ncarry T : nat) (reverse : bool) (j : jaxpr)
(* jax.core.ClosedJaxpr: constvars, invars, consts, eqns, outvars *)
with jaxpr := Jaxpr (cvs ivs : list var) (cs : list (nd A)) (es : list eqn) (os : list (atom (nd A)))
(* jax.core.JaxprEqn *)
with eqn := Eqn (k : opk) (ins : list (atom (nd A))) (outs : list var).

(* jaxpr.constvars *)
Definition j_cvs j := match j with Jaxpr c _ _ _ _ => c end.
(* jaxpr.invars *)
Definition j_ivs j := match j with Jaxpr _ i _ _ _ => i end.
(* closed_jaxpr.consts *)
Definition j_cs j := match j with Jaxpr _ _ c _ _ => c end.
(* jaxpr.eqns *)
Definition j_es j := match j with Jaxpr _ _ _ e _ => e end.
(* jaxpr.outvars *)
Definition j_os j := match j with Jaxpr _ _ _ _ o => o end.

(* ---- lax.scan: iterate, collecting outputs ---- *)
Fixpoint loop {V} (step : list V -> nat -> option (list V * list V)) (ts : list nat) (carry : list V) : option (list V * list (list V)) :=
  match ts with
  | [] => Some (carry, [])
  | t :: ts' => match step carry t with None => None | Some (c, y) => match loop step ts' c with None => None | Some (c', ys) => Some (c', y :: ys) end end
  end.
(* lax.scan: the order of the iterations *)
Definition order (T : nat) (reverse : bool) : list nat := if reverse then rev (seq 0 T) else seq 0 T.
(* lax.scan(reverse=True): outputs are stored in the order of the inputs *)
Definition unorder {V} (reverse : bool) (ys : list V) : list V := if reverse then rev ys else ys.
(* stacking along a new leading axis *)
Definition stackv (ys : list (nd A)) : nd A := Nd (length ys :: sh (hd nd0 ys)) (fun i => at_ (nth (hd 0%nat i) ys nd0) (tl i)).
(* column j of the collected outputs *)
Definition col {V} (d : V) (ys : list (list V)) (j : nat) : list V := map (fun y => nth j y d) ys.
(* one list per output *)
Definition cols {V} (d : V) (ys : list (list V)) : list (list V) := map (col d ys) (seq 0 (length (hd [] ys))).

(* ---- primitive.bind on plain arrays (JAX itself; interpreter.py:175-200).  A scan of length 0 is not modelled (None). ---- *)
Fixpoint plain_of (k : opk) (xs : list (nd A)) {struct k} : option (list (nd A)) :=
  match k with
  | KPrim _ fs | KCustom fs => Some (map (fun f => o_fwd f xs) fs)
  | KPjit _ j => plain_run j true xs
  | KScan nc nk T rv j =>
    if Nat.eqb T 0 then None else
    let cons := firstn nc xs in let carry := firstn nk (skipn nc xs) in let inp := skipn (nc + nk) xs in
    match loop (fun c t => match plain_run j false (cons ++ c ++ map (fun x => row x t) inp) with None => None | Some r => Some (firstn nk r, skipn nk r) end) (order T rv) carry with
    | None => None
    | Some (c, ys) => Some (c ++ map stackv (cols nd0 (unorder rv ys)))
    end
  end
(* jax.core.eval_jaxpr on plain arrays *)
with plain_run (j : jaxpr) (closed : bool) (xs : list (nd A)) {struct j} : option (list (nd A)) :=
  match j with Jaxpr cvs ivs cs es os =>
    run0 (Code cvs ivs (map (fun e => match e with Eqn k i o => Instr i o (plain_of k) end) es) os) (if closed then cs else []) xs end.

(* ---- forward Laplacian ---- *)
Context (reg : K -> option lrule) (nreg : nat -> option lrule).   (* _LAPLACE_FN_REGISTRY, keyed by primitive and by name *)
Context (c2r : bool).
(* a literal is a plain array (interpreter.py:59-61) *)
Definition plain_atom (a : atom (nd A)) : atom (arg A) := match a with AVar v => AVar v | ALit x => ALit (AX x) end.
(* wrapped_functions.py:489-494 and interpreter.py:159 the default rule: no flags, in_axes=None, applied to each output of fs *)
Definition default_rule (fs : list (op A)) : lrule := fun th args => sequence (map (fun f => wrap_fl (fn_rule (Fn f None None) 0%Z None) c2r th args) fs).
(* jvp.py:483-580 on a function that returns a LIST of arrays, with in_axes=None and no flags: does it return?
   All Jacobians dense: dense_split_jvp maps over the list (jvp.py:442-450).  One argument, with a sparse Jacobian: sparse_jvp (jvp.py:130-136, all axes)
   returns when it switches to dense_jvp (jvp.py:162-166); otherwise it ends with grad_y.shape (jvp.py:184; for arrays without axes jvp.py:251 and
   broadcast_mask_to_jacobian, utils.py:546-564), which a list does not have.  Several arguments, not all dense: one_by_one_jvp adds the lists of
   Jacobians and Laplacians of the arguments (jvp.py:561-564), which concatenates them, and the tree_map in wrapper.py:120-136 rejects the lengths. *)
Definition list_returns (th : Z) (la : list (lapl A)) : bool :=
  negb (any_weak la) ||
  match la with
  | [a] => negb (Nat.eqb (ndim (lx a)) 0) &&
      match get_jacobian_for_reduction (ljac a) (norm_axes (ndim (jdata (ljac a)) - 1) (map Z.of_nat (seq 0 (ndim (lx a))))) with
      | Some (_, om) => (th <? Z.of_nat (rows om))%Z
      | None => false end
  | _ => false
  end.
(* the default rule for functions that return a list of arrays: custom_jvp calls (interpreter.py:155-161; bind returns a list whatever the number of
   results) and unregistered primitives with several results.  The second-order part is computed for the flattened list of results
   (hessian.py:73-105 flat_wrap, unravel), which is the same for every result as computing it alone (Multi.v). *)
Definition list_rule (fs : list (op A)) : lrule := fun th args => if list_returns th (als args) then default_rule fs th args else None.
Lemma list_default fs th args outs : list_rule fs th args = Some outs -> default_rule fs th args = Some outs.
Proof. unfold list_rule. destruct (list_returns _ _); [auto|discriminate]. Qed.
(* wrapped_functions.py:488-494: an unregistered primitive with one result returns an array, one with several results a list
   (a primitive that returns a list of one array is KCustom [f]) *)
Definition missing_rule (fs : list (op A)) : lrule := match fs with [f] => default_rule fs | _ => list_rule fs end.
Lemma missing_default fs th args outs : missing_rule fs th args = Some outs -> default_rule fs th args = Some outs.
Proof. unfold missing_rule. destruct fs as [|f [|? ?]]; auto using list_default. Qed.
(* interpreter.py:163-169 eval_laplacian, wrapped_functions.py:472-498 get_laplacian *)
Definition eval_prim (key : K) (fs : list (op A)) : lrule := match reg key with Some r => r | None => missing_rule fs end.

(* np.all(a.jacobian.x0_idx == b.jacobian.x0_idx) followed by lax.scan's check that the carry keeps its shapes (interpreter.py:111-116) *)
Definition idx_match (a b : jac A) : bool :=
  match jidx a, jidx b with
  | None, None => true
  | Some m, Some m' => ixeqb (sh m) (sh m') && forallb (fun i => Z.eqb (at_ m i) (at_ m' i)) (allix (sh m))
  | _, _ => false
  end.
(* lax.scan: the carry keeps its pytree structure and shapes *)
Definition same_type (a b : arg A) : bool :=
  match a, b with
  | AX x, AX y => ixeqb (sh x) (sh y)
  | AL u, AL v => ixeqb (sh (lx u)) (sh (lx v)) && ixeqb (sh (jdata (ljac u))) (sh (jdata (ljac v))) && ixeqb (sh (llap u)) (sh (llap v))
  | _, _ => false
  end.
(* interpreter.py:111-116 for one leaf *)
Definition carry_match (a b : arg A) : bool := same_type a b && match a, b with AL u, AL v => idx_match (ljac u) (ljac v) | _, _ => true end.
(* Python: all(f(x, y) for x, y in zip(l, m)), equal lengths *)
Fixpoint all2 {X} (f : X -> X -> bool) (l m : list X) : bool := match l, m with [], [] => true | x :: l', y :: m' => f x y && all2 f l' m' | _, _ => false end.
(* utils.py:528-543 extract_jacobian_mask (merge); also interpreter.py:125-136: put the index tensors of b onto a *)
Definition set_idx (a b : arg A) : arg A := match a, b with AL u, AL v => AL (Lapl (lx u) (Jac (jdata (ljac u)) (jidx (ljac v))) (llap u)) | _, _ => a end.
(* what lax.scan's stacking does to the leaves of a forward Laplacian value, and interpreter.py:131-136 *)
Definition stack_arg (ys : list (arg A)) : arg A :=
  match hd (AX nd0) ys with
  | AX _ => AX (stackv (map (@aval A) ys))
  | AL b => AL (Lapl (stackv (map (@aval A) ys)) (Jac (stackv (map (fun y => jdata (ljac (lift y))) ys)) (jidx (ljac b))) (stackv (map (fun y => llap (lift y)) ys)))
  end.
(* interpreter.py:86-137 eval_scan; [body] evaluates the body.  first_carry / first_y are evaluated at x[0].
   The index tensors of y come from first_y; they are those of every iteration, since index tensors are computed at trace time
   (the model takes them from the first iteration it runs). *)
Definition eval_scan (body : list (arg A) -> option (list (arg A))) (nc nk T : nat) (rv : bool) (invals : list (arg A)) : option (list (arg A)) :=
  if Nat.eqb T 0 then None else
  let cons := firstn nc invals in let carry := firstn nk (skipn nc invals) in let inp := skipn (nc + nk) invals in
  if negb (forallb (fun v => negb (is_al v)) inp) then None else                                       (* l.94-96 *)
  let wrapped c t := match body (cons ++ map2 set_idx c carry ++ map (fun x => AX (row (aval x) t)) inp) with None => None | Some r => Some (firstn nk r, skipn nk r) end in
  match wrapped carry 0%nat with                                                                      (* l.109 *)
  | None => None
  | Some (fc, fy) =>
    if negb (all2 carry_match carry fc) then None else                                                 (* l.111-116 *)
    match loop (fun c t => match wrapped c t with None => None | Some (c', y) => if all2 same_type carry c' then Some (c', y) else None end) (order T rv) carry with
    | None => None
    | Some (c, ys) => Some (map2 set_idx c fc ++ map stack_arg (cols (AX nd0) (unorder rv ys)))        (* l.125-137 *)
    end
  end.

(* with (interpreter.py:31-77) or without reference counting *)
Definition runb {V} (b : bool) (C : code V) (cs xs : list V) := if b then run C cs xs else run0 C cs xs.
(* interpreter.py:171-219, one equation.  [rc] = true: the reference-counted environment of the code; false: nothing is ever freed. *)
Fixpoint step_of (rc : bool) (th : Z) (k : opk) (invals : list (arg A)) {struct k} : option (list (arg A)) :=
  if forallb (fun v => negb (is_al v)) invals then option_map (map (@AX A)) (plain_of k (map (@aval A) invals))   (* l.175-200 *)
  else match k with
  | KScan nc nk T rv j => eval_scan (jrun rc th j false) nc nk T rv invals                              (* l.201-202 *)
  | KPjit name j => match nreg name with Some r => r th invals | None => jrun rc th j true invals end   (* l.203-204, 139-153 *)
  | KCustom fs => list_rule fs th invals                                                                (* l.205-206, 155-161 *)
  | KPrim key fs => eval_prim key fs th invals                                                          (* l.207-208 *)
  end
(* interpreter.py:80-219 eval_jaxpr_with_forward_laplacian; a scan body is called with consts () (l.101) *)
with jrun (rc : bool) (th : Z) (j : jaxpr) (closed : bool) (xs : list (arg A)) {struct j} : option (list (arg A)) :=
  match j with Jaxpr cvs ivs cs es os =>
    runb rc (Code cvs ivs (map (fun e => match e with Eqn k i o => Instr (map plain_atom i) o (step_of rc th k) end) es) (map plain_atom os))
      (if closed then map (@AX A) cs else []) xs end.

(* ---- structural induction over nested jaxprs ---- *)
Definition subops (j : jaxpr) : list opk := map (fun e => match e with Eqn k _ _ => k end) (j_es j).
Section Ind.
Context (P : opk -> Prop).
Context (H1 : forall key fs, P (KPrim key fs)) (H2 : forall fs, P (KCustom fs)).
Context (H3 : forall name j, (forall k, In k (subops j) -> P k) -> P (KPjit name j)).
Context (H4 : forall nc nk T rv j, (forall k, In k (subops j) -> P k) -> P (KScan nc nk T rv j)).
Fixpoint opk_all (k : opk) : P k :=
  let inner (j : jaxpr) := match j as j return (forall k, In k (subops j) -> P k) with Jaxpr _ _ _ es _ =>
    (fix go (es : list eqn) : forall k, In k (map (fun e => match e with Eqn k _ _ => k end) es) -> P k :=
       match es with
       | [] => fun k H => match H with end
       | e :: es' => match e as e return (forall k, In k (map (fun e => match e with Eqn k _ _ => k end) (e :: es')) -> P k) with Eqn k0 i o => fun k H => match H with or_introl E => match E in _ = k return P k with eq_refl => opk_all k0 end | or_intror H' => go es' k H' end end
       end) es end in
  match k with
  | KPrim key fs => H1 key fs | KCustom fs => H2 fs
  | KPjit name j => @H3 name j (inner j) | KScan nc nk T rv j => @H4 nc nk T rv j (inner j)
  end.
End Ind.
End Interp.
