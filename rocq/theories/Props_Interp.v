(* Props_Interp.v : property theorems C15, C25-C29, C33, C35 and the program-level part of C14. *)
From Verif Require Import Check FwdLapl Registry.
From Coq Require Import QArith Qround.
Set Implicit Arguments.
Open Scope nat_scope.

(* ---- a small concrete registry over the integers, for the examples: 0 = mul, 1 = add, 2 = lt, 3 = reduce_sum over all axes of a vector ---- *)
Definition one_rule (R : rule Z) : @lrule Z := fun th xs => option_map (fun v => [v]) (wrap_fl R false th xs).
Definition zlt (xs : list (nd Z)) : nd Z := Nd (sh (nth 0 xs nd0)) (fun p => if (at_ (nth 0 xs nd0) p <? at_ (nth 1 xs nd0) p)%Z then 1%Z else 0%Z).
Definition ex_reg (k : nat) : option (@lrule Z) :=
  match k with
  | 0 => Some (one_rule mul_rule) | 1 => Some (one_rule add_rule)
  | 2 => Some (fun th xs => option_map (fun v => [v]) (without_fl zlt xs))
  | 3 => Some (one_rule (sum_rule [0%Z] [0]))
  | _ => None
  end.
Definition op_lt : op Z := Op zlt (fun _ _ _ _ => 0%Z) (fun _ _ _ _ _ _ => 0%Z).
Definition no_names (_ : nat) : option (@lrule Z) := None.
Definition mulE (a b : atom (nd Z)) (o : nat) : @eqn Z nat := Eqn (KPrim 0 [op_mul]) [a; b] [o].
Definition addE (a b : atom (nd Z)) (o : nat) : @eqn Z nat := Eqn (KPrim 1 [op_add]) [a; b] [o].
Definition ltE (a b : atom (nd Z)) (o : nat) : @eqn Z nat := Eqn (KPrim 2 [op_lt]) [a; b] [o].
Definition V (v : nat) : atom (nd Z) := AVar v.
Definition gotl (o : option (list (arg Z))) : list (arg Z) := match o with Some r => r | None => [] end.
Lemma gotl_ok o : match o with Some _ => true | None => false end = true -> o = Some (gotl o).
Proof. destruct o; cbn; congruence. Qed.
Definition show1 (v : arg Z) : bool * shape * list Z * option (list Z) * list Z * list Z :=
  match v with AL a => (true, sh (lx a), flat (lx a), option_map flat (jidx (ljac a)), flat (jdata (ljac a)), flat (llap a)) | AX x => (false, sh x, flat x, None, [], []) end.

(* ---- C25: evaluation with the reference-counted environment (variables are deleted when their counter reaches zero) gives exactly the outputs of
   evaluation in an environment that never forgets, at every nesting depth (jitted calls and scan bodies), for every registry, threshold and
   arguments; including whether an exception is raised.  [smallj]: no output variable of any (sub)jaxpr is read more than 2^31-1 times. ---- *)
Theorem C25_refcounting_is_invisible : forall (A : Type) (RA : CRing A) (K : Type) (reg : K -> option lrule) (nreg : nat -> option lrule) (c2r : bool) (threshold : Z)
  (j : @jaxpr A K) (closed : bool) (args : list (arg A)), smallj j ->
  jrun reg nreg c2r true threshold j closed args = jrun reg nreg c2r false threshold j closed args.
Proof. intros A RA K reg nreg c2r th j closed args. apply jrun_frees_nothing. Qed.
Print Assumptions C25_refcounting_is_invisible.
(* y = x*x; z = jit(u -> (let w = u*u in w+u))(y); return z + x, y.  x is read three times, y twice and is an output *)
Definition exJ_in : @jaxpr Z nat := Jaxpr [] [0] [] [mulE (V 0) (V 0) 1; addE (V 1) (V 0) 2] [V 2].
Definition exJ : @jaxpr Z nat := Jaxpr [] [0] [] [mulE (V 0) (V 0) 1; Eqn (KPjit 7 exJ_in) [V 1] [2]; addE (V 2) (V 0) 3] [V 3; V 1].
Definition ex_x : arg Z := AL (de [1] [3]%Z 1 [1]%Z [0]%Z).
Example C25_hypotheses_met : smallj exJ /\ map show1 (gotl (jrun ex_reg no_names false true 0 exJ true [ex_x])) = [(true, [1], [93]%Z, None, [115]%Z, [110]%Z); (true, [1], [9]%Z, None, [6]%Z, [2]%Z)].
Proof.
  split; [|vmr]. assert (Hin : few_readsj exJ_in /\ few_readsj exJ) by (split; intros v Hv; vm_compute in Hv; repeat (destruct Hv as [<-|Hv]; [vm_compute; discriminate|]); destruct Hv).
  split; [apply Hin|]. intros k Hk. cbn [subops exJ j_es map In] in Hk. destruct Hk as [<-|[<-|[<-|[]]]]; constructor; [apply Hin|]. intros k Hk. cbn [subops exJ_in j_es map In] in Hk. destruct Hk as [<-|[<-|[]]]; constructor.
Qed.
(* x^4 + x^2 + x at 3: value 93, derivative 4*27+6+1 = 115, second derivative 12*9+2 = 110 *)

(* ---- C26: after any number of equations the environment holds exactly the variables that are still needed.  E is the environment that never
   forgets.  A variable is needed when it is an argument or constant of the jaxpr, an output, or an operand of a remaining equation. ---- *)
Theorem C26_only_needed_values_are_kept : forall (A : Type) (RA : CRing A) (K : Type) (reg : K -> option lrule) (nreg : nat -> option lrule) (c2r : bool) (threshold : Z)
  (j : @jaxpr A K) (closed : bool) (args : list (arg A)) (done todo : list eqn) (s : st), few_readsj j -> j_es j = done ++ todo ->
  let C := code_of reg nreg c2r true threshold j in let instrs := map (instr_of reg nreg c2r true threshold) in
  (match init C (consts_of j closed) args with None => None | Some s0 => exec s0 (instrs done) end) = Some s ->
  exists E, (match init0 C (consts_of j closed) args with None => None | Some E0 => exec0 E0 (instrs done) end) = Some E /\
  forall v, let needed := In v (j_ivs j ++ j_cvs j) \/ In v (vars_of (j_os j)) \/ In v (flat_map (fun e => vars_of (ins_of e)) todo) in
    (needed -> env s v = E v) /\ (~ needed -> env s v = None).
Proof.
  intros A RA K reg nreg c2r th j closed args es1 es2 s HF HE C instrs H.
  assert (HE' : c_eqns C = instrs es1 ++ instrs es2) by (unfold C, instrs, code_of; cbn [c_eqns]; rewrite HE; apply map_app).
  destruct (@env_contents _ C (consts_of j closed) args (instrs es1) (instrs es2) s (@few_code _ _ _ reg nreg c2r true th j HF) HE' H) as (E & H1 & H2).
  exists E. split; [exact H1|]. intros v. specialize (H2 v). cbn zeta in H2. unfold C, code_of in H2. cbn [c_ins c_consts c_outs] in H2. rewrite vars_plain in H2.
  assert (ER : reads (instrs es2) = flat_map (fun e => vars_of (ins_of e)) es2).
  { unfold reads, instrs. rewrite flat_map_concat_map, map_map, <- flat_map_concat_map. apply flat_map_ext. intros e. cbn [instr_of i_in]. apply vars_plain. }
  rewrite ER in H2. exact H2.
Qed.
Print Assumptions C26_only_needed_values_are_kept.
(* in exJ after the third equation the intermediate variable 2 is gone, 1 and 3 (outputs) are there, the argument 0 is kept *)
Example C26_hypotheses_met : let C := code_of ex_reg no_names false true 0 exJ in
  match init C [] [ex_x] with None => None | Some s0 => match exec s0 (c_eqns C) with None => None | Some s => Some (map (fun v => match env s v with Some _ => true | None => false end) [0; 1; 2; 3]) end end = Some [true; true; false; true].
Proof. vmr. Qed.

(* ---- C27: values that no derivative-carrying argument reaches are plain arrays equal to what ordinary evaluation of the jaxpr gives.
   [depends j args v]: some operand of the equation defining v depends on an argument that carries derivatives. ---- *)
Theorem C27_independent_values_are_plain : forall (A : Type) (RA : CRing A) (K : Type) (reg : K -> option lrule) (nreg : nat -> option lrule) (c2r : bool) (threshold : Z)
  (j : @jaxpr A K) (closed : bool) (args : list (arg A)) (xs : list (nd A)) (rs : list (arg A)) (ps : list (nd A)), smallj j ->
  Forall2 (fun v x => forall y, v = AX y -> x = y) args xs ->
  jrun reg nreg c2r true threshold j closed args = Some rs -> plain_run j closed xs = Some ps ->
  forall m a, nth_error (j_os j) m = Some a -> dep_atom (depends j args) a = false -> exists y, nth_error ps m = Some y /\ nth_error rs m = Some (AX y).
Proof. intros A RA K reg nreg c2r th j closed args xs rs ps HS. apply independent_plain. auto. Qed.
Print Assumptions C27_independent_values_are_plain.
(* the derivative-free wrappers: comparisons, sign, stop_gradient, is_finite, ... on derivative-carrying arguments; functions with an integer or boolean result *)
Theorem C27_derivative_free_rules : forall (A : Type) (RA : CRing A) (f : list (nd A) -> nd A) (args : list (arg A)),
  without_fl f args = Some (AX (f (map (@aval A) args))).
Proof. reflexivity. Qed.
Theorem C27_integer_results : forall (A : Type) (RA : CRing A) (R : rule A) (c2r : bool) (threshold : Z) (args : list (arg A)) (r : arg A), r_float R = false ->
  wrap_fl R c2r threshold args = Some r -> exists y, r = AX y.
Proof.
  intros A RA R c2r th args r HR H. unfold wrap_fl in H. destruct (sequence _); [|discriminate]. cbn [bind] in H. destruct (sequence _); [|discriminate]. cbn [bind] in H.
  destruct (als args); [injection H as <-; eexists; reflexivity|]. destruct (jvp_fn _ _ _ _ _ _ _) as [[[y g] lap]|]; [|discriminate]. cbn [bind] in H. destruct (jhj_trace _ _ _ _ _ _ _ _ _ _); [|discriminate]. cbn [bind] in H.
  destruct (bin _ _ _); [|discriminate]. cbn [bind] in H. rewrite HR in H. injection H as <-. exists y. reflexivity.
Qed.
Print Assumptions C27_integer_results.
(* c*c is independent of x; x < c is a comparison; x*(c*c) carries derivatives *)
Definition exJ27 : @jaxpr Z nat := Jaxpr [9] [0; 1] [arr [1] [5]%Z] [mulE (V 1) (V 9) 2; ltE (V 0) (V 1) 3; mulE (V 0) (V 2) 4] [V 2; V 3; V 4].
Example C27_hypotheses_met : map (dep_atom (depends exJ27 [ex_x; AX (arr [1] [4]%Z)])) (j_os exJ27) = [false; true; true] /\
  map show1 (gotl (jrun ex_reg no_names false true 0 exJ27 true [ex_x; AX (arr [1] [4]%Z)])) = [(false, [1], [20]%Z, None, [], []); (false, [1], [1]%Z, None, [], []); (true, [1], [60]%Z, None, [20]%Z, [0]%Z)].
Proof. split; vmr. Qed.

(* ---- C28: replacing a jitted call whose name has no registered rule by the equations of its body (variables renamed apart by rho) does not
   change the result (nor whether an exception is raised). ---- *)
Theorem C28_nested_jit_is_transparent_partial : forall (A : Type) (RA : CRing A) (K : Type) (reg : K -> option lrule) (nreg : nat -> option lrule) (c2r : bool) (threshold : Z)
  (J : @jaxpr A K) (closed : bool) (args : list (arg A)) (name : nat) (body : jaxpr) (ins : list (atom (nd A))) (outs : list var) (before after : list eqn) (rho : var -> var),
  smallj J -> nreg name = None -> (forall v w, rho v = rho w -> v = w) -> j_es J = before ++ Eqn (KPjit name body) ins outs :: after ->
  (forall v w, In v (vars_code (code_of reg nreg c2r true threshold J)) -> v <> rho w) ->
  let ev := instr_of reg nreg c2r true threshold in let pl := map (@plain_atom A) in
  let inlined := Code (j_cvs J) (j_ivs J)
    (map ev before ++
     (Instr (map (fun x => ALit (AX x)) (j_cs body)) (map rho (j_cvs body)) (fun xs => Some xs)       (* the constants of the body *)
      :: Instr (pl ins) (map rho (j_ivs body)) (fun xs => Some xs)                                   (* its arguments *)
      :: map (ren_instr rho) (map ev (j_es body))                                                    (* its equations *)
      ++ [Instr (map (ren_atom rho) (pl (j_os body))) outs (fun xs => Some xs)])                     (* its results *)
     ++ map ev after) (pl (j_os J)) in
  few_reads inlined -> jrun reg nreg c2r true threshold J closed args = run inlined (consts_of J closed) args.
Proof.
  intros A RA K reg nreg c2r th J closed args name j ins outs es1 es2 rho HS Hn Hi HE Hf ev pl inlined HF.
  assert (EQ : inlined = Code (j_cvs J) (j_ivs J) (map ev es1 ++ splice rho (code_of reg nreg c2r true th j) (map (@AX A) (j_cs j)) (pl ins) outs ++ map ev es2) (pl (j_os J))).
  { unfold inlined, splice, move, code_of. cbn [c_consts c_ins c_eqns c_outs]. rewrite (map_map (@AX A)). reflexivity. }
  rewrite EQ in HF |- *. apply (@pjit_inline A RA K reg nreg c2r th J closed args name j ins outs es1 es2 rho HS Hn Hi HE Hf HF).
Qed.
Print Assumptions C28_nested_jit_is_transparent_partial.
Example C28_hypotheses_met : j_es exJ = [mulE (V 0) (V 0) 1] ++ Eqn (KPjit 7 exJ_in) [V 1] [2] :: [addE (V 2) (V 0) 3] /\ smallj exJ /\ no_names 7 = None /\
  (forall v w, In v (vars_code (code_of ex_reg no_names false true 0 exJ)) -> v <> w + 10).
Proof.
  split; [reflexivity|]. split; [apply C25_hypotheses_met|]. split; [reflexivity|]. intros v w Hv. vm_compute in Hv. repeat (destruct Hv as [<-|Hv]; [lia|]). destruct Hv.
Qed.
(* missing: names that do have a rule.  A user function that happens to be called like a registered one is replaced by the registered rule:
   with 'sign' (here name 7) registered as derivative-free sign, a jitted function  sign(u) = u*u + u  is evaluated as the sign of u. *)
Definition sign_names (n : nat) : option (@lrule Z) := if Nat.eqb n 7 then Some (fun th xs => option_map (fun v => [v]) (without_fl (fun xs => ndmap Z.sgn (nth 0 xs nd0)) xs)) else None.
Theorem C28_registered_names_capture_refuted :
  map show1 (gotl (jrun ex_reg sign_names false true 0 exJ true [ex_x])) = [(true, [1], [4]%Z, None, [1]%Z, [0]%Z); (true, [1], [9]%Z, None, [6]%Z, [2]%Z)] /\
  jrun ex_reg sign_names false true 0 exJ true [ex_x] <> jrun ex_reg no_names false true 0 exJ true [ex_x].
Proof.
  split; [vmr|]. intros H. apply (f_equal (fun o => map show1 (gotl o))) in H. vm_compute in H. discriminate.
Qed.
Print Assumptions C28_registered_names_capture_refuted.

(* ---- C29: lax.scan.  When eval_scan returns, its result is the carry of the unrolled loop followed by the stacked outputs of the unrolled loop;
   the scanned arrays were plain.  [iterate body ...] is one iteration: the body applied to constants, carry and slice t.
   Dense mode (no Jacobian of an argument is sparse; then none in the loop is). ---- *)
Theorem C29_scan_is_the_unrolled_loop_partial : forall (A : Type) (RA : CRing A) (K : Type) (reg : K -> option lrule) (nreg : nat -> option lrule) (c2r : bool) (threshold : Z)
  (j : @jaxpr A K) (nconst ncarry T : nat) (reverse : bool) (args rs : list (arg A)),
  (forall key r, reg key = Some r -> dense_rule r) -> (forall name r, nreg name = Some r -> dense_rule r) -> smallj j ->
  Forall (@dense_arg A) args ->
  let body := jrun reg nreg c2r true threshold j false in
  eval_scan body nconst ncarry T reverse args = Some rs ->
  let carry0 := firstn ncarry (skipn nconst args) in let inp := skipn (nconst + ncarry) args in
  exists c ys, loop (fun c t => match body (firstn nconst args ++ c ++ map (fun x => AX (row (aval x) t)) inp) with None => None | Some r => Some (firstn ncarry r, skipn ncarry r) end)
      (if reverse then rev (seq 0 T) else seq 0 T) carry0 = Some (c, ys) /\
    rs = c ++ map (@stack_arg A RA) (cols (AX nd0) (if reverse then rev ys else ys)) /\ length c = length carry0 /\
    (forall v, In v inp -> exists x, v = AX x).
Proof.
  intros A RA K reg nreg c2r th j nc nk T rv args rs Hr Hn HS Hd body H.
  apply (@scan_dense A RA body nc nk T rv args rs Hd); [|exact H]. intros l r Hl E. exact (@program_dense A RA K reg nreg c2r Hr Hn th j false l r HS Hl E).
Qed.
Print Assumptions C29_scan_is_the_unrolled_loop_partial.
(* sparse mode: the same when the pattern of the carry does not change along the loop (for the programs of C46, whose pattern never does: Props_Scan.v) *)
Theorem C29_scan_sparse_partial : forall (A : Type) (RA : CRing A) (body : list (arg A) -> option (list (arg A))) (nconst ncarry T : nat) (reverse : bool) (args rs : list (arg A)),
  let carry0 := firstn ncarry (skipn nconst args) in let inp := skipn (nconst + ncarry) args in
  let iter := fun c t => match body (firstn nconst args ++ c ++ map (fun x => AX (row (aval x) t)) inp) with None => None | Some r => Some (firstn ncarry r, skipn ncarry r) end in
  (forall c t c' y, Forall2 (@same_idx A) carry0 c -> iter c t = Some (c', y) -> all2 (@same_type A) carry0 c' = true -> Forall2 (@same_idx A) carry0 c') ->
  eval_scan body nconst ncarry T reverse args = Some rs ->
  exists c ys, loop iter (if reverse then rev (seq 0 T) else seq 0 T) carry0 = Some (c, ys) /\
    rs = c ++ map (@stack_arg A RA) (cols (AX nd0) (if reverse then rev ys else ys)) /\ length c = length carry0 /\ (forall v, In v inp -> exists x, v = AX x).
Proof. intros A RA body nc nk T rv args rs carry0 inp iter HI H. exact (@scan_unrolled A RA body nc nk T rv args rs HI H). Qed.
Print Assumptions C29_scan_sparse_partial.
(* what stacking gives: values and Laplacians are stacked along a new leading axis ... *)
Theorem C29_stacked_outputs : forall (A : Type) (RA : CRing A) (ys : list (arg A)) (t : nat) (p : ix),
  (t < length ys)%nat -> at_ (aval (@stack_arg A RA ys)) (t :: p) = at_ (aval (nth t ys (AX nd0))) p /\
  vlap (@stack_arg A RA ys) (t :: p) = (if is_al (hd (AX nd0) ys) then vlap (nth t ys (AX nd0)) p else r0).
Proof.
  intros A RA ys t p Ht. unfold stack_arg, vlap. destruct (hd (AX nd0) ys) as [b|x]; cbn [is_al aval lift lx llap stackv at_ hd tl].
  - rewrite nth_map_in with (dx := AX nd0) by exact Ht. rewrite nth_map_in with (dx := AX nd0) by exact Ht. auto.
  - rewrite nth_map_in with (dx := AX nd0) by exact Ht. auto.
Qed.
(* ... but so is the data of the Jacobian, which therefore has the scanned axis in front of the axis of input coordinates: the returned value is
   not a FwdLaplArray of the stacked output.  carry = x (two inputs, dx = (10, 20)), every iteration emits the carry: the Jacobian that is
   returned claims d y[1] / d x_0 = 20. *)
Definition exScan : @jaxpr Z nat := Jaxpr [] [0; 1] [] [mulE (V 0) (V 1) 2] [V 0; V 2].
Definition exScan_args : list (arg Z) := [AL (de [] [3]%Z 2 [10; 20]%Z [0]%Z); AX (arr [2] [1; 1]%Z)].
Theorem C29_stacked_jacobian_refuted : exists c y,
  eval_scan (jrun ex_reg no_names false true 0 exScan false) 0 1 2 false exScan_args = Some [c; y] /\
  (forall l, jrun ex_reg no_names false true 0 exScan false [nth 0 exScan_args (AX nd0); AX (row (aval (nth 1 exScan_args (AX nd0))) 1)] = Some l -> vjac (nth 1 l (AX nd0)) 0 [] = 10%Z) /\
  vjac y 0 [1] = 20%Z /\ sh (aval y) = [2].
Proof.
  exists (nth 0 (gotl (eval_scan (jrun ex_reg no_names false true 0 exScan false) 0 1 2 false exScan_args)) (AX nd0)), (nth 1 (gotl (eval_scan (jrun ex_reg no_names false true 0 exScan false) 0 1 2 false exScan_args)) (AX nd0)).
  split; [|split; [|split; vmr]].
  - transitivity (Some (gotl (eval_scan (jrun ex_reg no_names false true 0 exScan false) 0 1 2 false exScan_args))); [apply gotl_ok; vmr|]. vmr.
  - intros l H. apply (f_equal gotl) in H. cbv beta iota delta [gotl] in H. subst l. vmr.
Qed.
Print Assumptions C29_stacked_jacobian_refuted.
(* carry := carry * x_t over x = (2, 5): the product rule along the loop, no stacked derivative outputs *)
Definition exLoop : @jaxpr Z nat := Jaxpr [] [0; 1] [] [mulE (V 0) (V 1) 2; mulE (V 2) (V 0) 3; mulE (V 1) (V 1) 4] [V 3; V 4].
Example C29_hypotheses_met : (forall key r, ex_reg key = Some r -> dense_rule r) /\
  map show1 (gotl (eval_scan (jrun ex_reg no_names false true 0 exLoop false) 0 1 2 true [AL (de [] [3]%Z 1 [1]%Z [0]%Z); AX (arr [2] [2; 5]%Z)])) =
    [(true, [], [4050]%Z, None, [5400]%Z, [5400]%Z); (false, [2], [4; 25]%Z, None, [], [])].
Proof.
  split; [|vmr]. assert (HW : forall R, dense_rule (one_rule R)).
  { intros R th xs ys Hx H. unfold one_rule in H. destruct (wrap_fl R false th xs) as [v|] eqn:E; [|discriminate]. cbn in H. injection H as <-. constructor; [|constructor]. exact (@wrap_dense _ _ R false th xs v Hx E). }
  intros key r H. destruct key as [|[|[|[|k]]]]; cbn in H; try discriminate; injection H as <-; try apply HW.
  intros th xs ys _ H. cbn in H. injection H as <-. constructor; [exact I|constructor].
Qed.
(* (2*(5 x^2)^2) = 50 x^4 : 4050, 200 x^3 = 5400, 600 x^2 = 5400 at x = 3 *)

(* ---- C14 for whole programs: from dense seeds every value stays dense ---- *)
Theorem C14_dense_programs_stay_dense : forall (A : Type) (RA : CRing A) (K : Type) (reg : K -> option lrule) (nreg : nat -> option lrule) (c2r : bool) (threshold : Z)
  (j : @jaxpr A K) (closed : bool) (args rs : list (arg A)),
  (forall key r, reg key = Some r -> dense_rule r) -> (forall name r, nreg name = Some r -> dense_rule r) -> smallj j ->
  (forall a, In (AL a) args -> weak (ljac a) = false) -> jrun reg nreg c2r true threshold j closed args = Some rs -> forall a, In (AL a) rs -> weak (ljac a) = false.
Proof.
  intros A RA K reg nreg c2r th j closed args rs Hr Hn HS Ha H a Hin. assert (Hd : Forall (@dense_arg A) args) by (apply Forall_forall; intros [b|x] Hb; cbn; auto).
  pose proof (@program_dense A RA K reg nreg c2r Hr Hn th j closed args rs HS Hd H) as HF. rewrite Forall_forall in HF. exact (HF _ Hin).
Qed.
Print Assumptions C14_dense_programs_stay_dense.

(* ---- C15 ---- *)
Lemma trunc_pos q : (0 <= q)%Q -> (inject_Z (trunc q) <= q)%Q /\ (q < inject_Z (trunc q) + 1)%Q /\ (0 <= trunc q)%Z.
Proof.
  intros H. unfold trunc. assert (E : Qle_bool 0 q = true) by (apply Qle_bool_iff; exact H). rewrite E. split; [apply Qfloor_le|]. split.
  - pose proof (Qlt_floor q) as HH. rewrite inject_Z_plus in HH. exact HH.
  - change 0%Z with (Qfloor (inject_Z 0)). apply Qfloor_resp_le. exact H.
Qed.
Lemma trunc_neg q : (q < 0)%Q -> (inject_Z (trunc q) - 1 < q)%Q /\ (q <= inject_Z (trunc q))%Q /\ (trunc q <= 0)%Z.
Proof.
  intros H. unfold trunc. assert (E : Qle_bool 0 q = false) by (destruct (Qle_bool 0 q) eqn:E; auto; apply Qle_bool_iff in E; exfalso; apply (Qlt_not_le _ _ H E)). rewrite E. split; [|split; [apply Qle_ceiling|]].
  - pose proof (Qceiling_lt q) as HH. unfold Z.sub in HH. rewrite inject_Z_plus in HH. exact HH.
  - change 0%Z with (Qceiling (inject_Z 0)). apply Qceiling_resp_le. apply Qlt_le_weak. exact H.
Qed.
Theorem C15_threshold : forall (t : Q) (sizes : list nat),
  let N := inject_Z (Z.of_nat (list_sum sizes)) in let th := threshold_of t sizes in
  ((0 < t < 1)%Q -> (inject_Z th <= t * N)%Q /\ (t * N < inject_Z th + 1)%Q) /\
  ((1 <= t)%Q -> (inject_Z th <= t)%Q /\ (t < inject_Z th + 1)%Q) /\
  ((t <= 0)%Q -> (th <= 0)%Z /\ (t <= inject_Z th)%Q /\ (inject_Z th - 1 < t)%Q).
Proof.
  intros t sizes N th. unfold th, threshold_of. fold N. split; [|split]; intros H.
  - destruct H as [H1 H2]. assert (E1 : Qle_bool t 0 = false) by (destruct (Qle_bool t 0) eqn:E; auto; apply Qle_bool_iff in E; exfalso; apply (Qlt_not_le _ _ H1 E)).
    assert (E2 : Qle_bool 1 t = false) by (destruct (Qle_bool 1 t) eqn:E; auto; apply Qle_bool_iff in E; exfalso; apply (Qlt_not_le _ _ H2 E)). rewrite E1, E2. cbn [negb andb].
    assert (HN : (0 <= t * N)%Q) by (apply Qmult_le_0_compat; [apply Qlt_le_weak; exact H1|unfold N; change 0%Q with (inject_Z 0); rewrite <- Zle_Qle; lia]). destruct (trunc_pos HN) as (A1 & A2 & _). auto.
  - assert (E2 : Qle_bool 1 t = true) by (apply Qle_bool_iff; exact H). rewrite E2. rewrite andb_false_r. assert (HP : (0 <= t)%Q) by (apply Qle_trans with 1%Q; [discriminate|exact H]). destruct (trunc_pos HP) as (A1 & A2 & _). auto.
  - assert (E1 : Qle_bool t 0 = true) by (apply Qle_bool_iff; exact H). rewrite E1. cbn [negb andb]. destruct (Qlt_le_dec t 0) as [Hl|Hl].
    + destruct (trunc_neg Hl) as (A1 & A2 & A3). auto.
    + assert (Et : (t == 0)%Q) by (apply Qle_antisym; auto). destruct (trunc_pos Hl) as (A1 & A2 & A3). assert (E0 : trunc t = 0%Z).
      { apply Z.le_antisymm; [|exact A3]. apply (Qle_trans _ _ _ A1) in H. change 0%Q with (inject_Z 0) in H. rewrite <- Zle_Qle in H. exact H. }
      rewrite E0. split; [lia|]. split; [exact H|]. apply Qlt_le_trans with 0%Q; [reflexivity|exact Hl].
Qed.
Print Assumptions C15_threshold.
(* the seeds are sparse iff the resulting integer is positive *)
Theorem C15_sparsity_switch : forall (A : Type) (RA : CRing A) (t : Q) (ws xs : list (nd A)), (0 < length xs) ->
  let th := threshold_of t (map (fun x => prod (sh x)) xs) in
  exists sparse, (sparse = true <-> (0 < th)%Z) /\ init_state (0 <? th)%Z ws (map (@AX A) xs) = seeds sparse ws xs /\ forall a, In (AL a) (seeds sparse ws xs) -> weak (ljac a) = sparse.
Proof.
  intros A RA t ws xs Hx th. exists (0 <? th)%Z. split; [apply Z.ltb_lt|]. split.
  - unfold init_state. assert (E : existsb (@is_al A) (map (@AX A) xs) = false) by (clear; induction xs; cbn; auto). rewrite E. f_equal. rewrite map_map. apply map_id.
  - intros a Ha. unfold seeds in Ha. apply in_map_iff in Ha. destruct Ha as (k & [= <-] & _). unfold seed. destruct (0 <? th)%Z; reflexivity.
Qed.
Print Assumptions C15_sparsity_switch.
Example C15_cases : map (fun t => threshold_of t [3; 4]) [(1 # 2)%Q; (1 # 7)%Q; (1 # 8)%Q; 1%Q; (5 # 2)%Q; 0%Q; (-5 # 2)%Q] = [3; 1; 0; 1; 2; 0; -2]%Z.
Proof. vmr. Qed.

(* ---- C33: the registry after any history of register_function / deregister_function ---- *)
Theorem C33_latest_rule_wins : forall (P N V : Type) (Pd : forall a b : P, {a = b} + {a <> b}) (Nd : forall a b : N, {a = b} + {a <> b}) (default : P -> V)
  (R : dict) (h1 : list event) (k : rkey) (v : V) (h2 : list event) (R1 : dict) (wrap : bool),
  replay Pd Nd R (h1 ++ Reg k v :: h2) = Some R1 -> (forall e, In e h2 -> ekey e <> k) -> is_registered k R1 = true /\ get_laplacian default k wrap R1 = Rule_ v.
Proof. intros P N V Pd Nd default R h1 k v h2 R1 wrap. apply latest_rule. Qed.
Theorem C33_deregistered : forall (P N V : Type) (Pd : forall a b : P, {a = b} + {a <> b}) (Nd : forall a b : N, {a = b} + {a <> b}) (default : P -> V)
  (R : dict) (h1 : list event) (k : rkey) (h2 : list event) (R1 : dict) (wrap : bool),
  replay Pd Nd R (h1 ++ Dereg k :: h2) = Some R1 -> (forall e, In e h2 -> ekey e <> k) ->
  is_registered k R1 = false /\ get_laplacian default k wrap R1 = match wrap, k with true, RPrim p => Rule_ (default p) | true, RName _ => TypeErr | false, _ => NoRule end.
Proof. intros P N V Pd Nd default R h1 k h2 R1 wrap. apply deregistered. Qed.
Theorem C33_untouched : forall (P N V : Type) (Pd : forall a b : P, {a = b} + {a <> b}) (Nd : forall a b : N, {a = b} + {a <> b}) (default : P -> V)
  (R : dict) (h : list event) (k : rkey) (R1 : dict) (wrap : bool),
  replay Pd Nd R h = Some R1 -> (forall e, In e h -> ekey e <> k) -> is_registered k R1 = is_registered k R /\ get_laplacian (V := V) default k wrap R1 = get_laplacian default k wrap R.
Proof. intros P N V Pd Nd default R h k R1 wrap. apply untouched. Qed.
Theorem C33_only_failure : forall (P N V : Type) (Pd : forall a b : P, {a = b} + {a <> b}) (Nd : forall a b : N, {a = b} + {a <> b}) (R : dict) (h : list event),
  replay Pd Nd R h = None <-> exists h1 k h2 (R1 : @dict P N V), h = h1 ++ Dereg k :: h2 /\ replay Pd Nd R h1 = Some R1 /\ is_registered k R1 = false.
Proof. intros P N V Pd Nd R h. apply replay_fails. Qed.
Print Assumptions C33_only_failure.
(* the interpreter evaluates a primitive with what get_laplacian(primitive, True) returns, and a jitted call with what get_laplacian(name) returns, if any *)
Theorem C33_interpreter_uses_the_registry : forall (A : Type) (RA : CRing A) (K : Type) (c2r : bool) (threshold : Z) (R : @dict (K * list (op A)) nat lrule) (key : K) (fs : list (op A)) (name : nat) (body : jaxpr) (invals : list (arg A)),
  existsb (@is_al A) invals = true ->
  let default := fun p => missing_rule c2r (snd p) in
  let step := step_of (fun key => R (RPrim (key, fs))) (fun n => R (RName n)) c2r true threshold in
  step (KPrim key fs) invals = match get_laplacian default (RPrim (key, fs)) true R with Rule_ r => r threshold invals | _ => None end /\
  step (KPjit name body) invals = match get_laplacian default (RName name) false R with Rule_ r => r threshold invals | _ => jrun (fun key => R (RPrim (key, fs))) (fun n => R (RName n)) c2r true threshold body true invals end.
Proof.
  intros A RA K c2r th R key fs name body invals He default step. assert (Hf : forallb (fun v : arg A => negb (is_al v)) invals = false).
  { clear -He. induction invals as [|v l IH]; cbn in *; [discriminate|]. destruct (is_al v); cbn in *; auto. }
  unfold step. cbn [step_of]. rewrite Hf. unfold eval_prim, get_laplacian, default. cbn [snd]. destruct (R (RPrim (key, fs))), (R (RName name)); auto.
Qed.
Print Assumptions C33_interpreter_uses_the_registry.
Example C33_case : let R := replay Nat.eq_dec Nat.eq_dec (fun _ => None) [Reg (RPrim 1) 10; Reg (RName 1) 20; Reg (RPrim 1) 11; Dereg (RName 1)] in
  match R with Some R => (get_laplacian (fun p => 100 + p) (RPrim 1) true R, get_laplacian (fun p => 100 + p) (RPrim 2) true R, get_laplacian (fun p => 100 + p) (RName 1) false R, get_laplacian (fun p => 100 + p) (RName 1) true R) = (Rule_ 11, Rule_ 102, NoRule, TypeErr) | None => False end.
Proof. vmr. Qed.

(* ---- C35 ---- *)
(* every coordinate 0 .. total-1 belongs to exactly one element of one leaf *)
Theorem C35_coordinates : forall (ss : list shape),
  (forall k p, (k < length ss) -> inb p (nth k ss []) -> coord ss k p < total ss) /\
  (forall i, i < total ss -> exists k p, (k < length ss) /\ inb p (nth k ss []) /\ coord ss k p = i) /\
  (forall k p k' p', k < length ss -> k' < length ss -> inb p (nth k ss []) -> inb p' (nth k' ss []) -> coord ss k p = coord ss k' p' -> k = k' /\ p = p').
Proof. intros ss. split; [|split]. - intros k p. apply coord_lt. - intros i. apply coord_surj. - intros k p k' p'. apply coord_inj. Qed.
Print Assumptions C35_coordinates.
(* unravel(ravel(leaves)) gives the leaves back *)
Theorem C35_unravel_ravel : forall (X : Type) (d : X) (xs : list (nd X)) (d' : nd X) (k : nat), k < length xs ->
  let back := unravel d (map (@sh X) xs) (ravel xs) in
  length back = length xs /\ sh (nth k back d') = sh (nth k xs d') /\ forall p, inb p (sh (nth k xs d')) -> at_ (nth k back d') p = at_ (nth k xs d') p.
Proof.
  intros X d xs d' k Hk back. unfold back. split; [unfold unravel; rewrite unravel_from_length, map_length; reflexivity|].
  assert (Hk' : k < length (map (@sh X) xs)) by (rewrite map_length; exact Hk). destruct (@unravel_nth X d (map (@sh X) xs) (ravel xs) k d' Hk') as [U1 U2].
  assert (Es : nth k (map (@sh X) xs) [] = sh (nth k xs d')) by (rewrite nth_map_in with (dx := d') by exact Hk; reflexivity). rewrite Es in U1, U2.
  split; [exact U1|]. intros p Hp. rewrite (U2 p Hp). apply nth_ravel; auto.
Qed.
Print Assumptions C35_unravel_ravel.
(* ravel(unravel(v)) gives the vector back *)
Theorem C35_ravel_unravel : forall (X : Type) (d : X) (ss : list shape) (v : list X), length v = total ss -> ravel (unravel d ss v) = v.
Proof.
  intros X d ss v Hv. assert (Hs : map (@sh X) (unravel d ss v) = ss).
  { unfold unravel. generalize 0. clear. induction ss as [|s ss IH]; intros idx; cbn; [reflexivity|]. rewrite IH. reflexivity. }
  apply nth_ext with (d := d) (d' := d); [rewrite ravel_length, Hs; auto|]. intros i Hi. rewrite ravel_length, Hs in Hi. destruct (@coord_surj ss i Hi) as (k & p & Hk & Hp & <-).
  destruct (@unravel_nth X d ss v k (Nd [] (fun _ => d)) Hk) as [U1 U2]. rewrite <- Hs at 1. rewrite (@nth_ravel X d (Nd [] (fun _ => d))).
  - apply U2. exact Hp.
  - unfold unravel. rewrite unravel_from_length. exact Hk.
  - rewrite U1. exact Hp.
Qed.
Print Assumptions C35_ravel_unravel.
(* ... and coordinate coord ss k p is the row of the Jacobian that seeds element p of leaf k, in both modes *)
Theorem C35_seed_rows : forall (A : Type) (RA : CRing A) (sparse : bool) (ws xs : list (nd A)) (k : nat), wts_ok ws xs -> k < length xs ->
  let ss := map (@sh A) xs in let a := seed sparse ws xs k in
  lx a = nth k xs nd0 /\ awf (total ss) a /\ weak (ljac a) = sparse /\ (forall p, inb p (sh (nth k xs nd0)) -> at_ (llap a) p = r0) /\
  (forall i p, inb p (sh (nth k xs nd0)) -> jent (ljac a) i p = if Nat.eqb i (coord ss k p) then weight ws k p else r0).
Proof. intros A RA sparse ws xs k HW Hk ss a. destruct (@seed_ok A RA ws xs sparse k HW Hk) as (H1 & H2 & _ & H3 & _ & H4 & H5). auto. Qed.
Print Assumptions C35_seed_rows.
Example C35_case : map (fun kp => coord [[2]; []; [2; 2]] (fst kp) (snd kp)) [(0, [1]); (1, []); (2, [1; 0])] = [1; 2; 5] /\
  map (@flat Z) (unravel 0%Z [[2]; []; [2; 2]] [10; 11; 12; 13; 14; 15; 16]%Z) = [[10; 11]; [12]; [13; 14; 15; 16]]%Z /\
  wts_ok [arr [] [3]%Z; arr [2] [4; 5]%Z] [arr [2] [0; 0]%Z; arr [2] [0; 0]%Z].
Proof.
  split; [vmr|]. split; [vmr|]. split; [reflexivity|]. intros k Hk. cbn in Hk. destruct k as [|[|k]]; try lia; cbn.
  - exists [2], []. split; [reflexivity|constructor].
  - exists [], [2]. split; [reflexivity|]. constructor; auto.
Qed.
