(* DepCalc.v : which values of a program are FwdLaplArrays, computed from the program text alone (data flow), and the proof that the interpreter agrees. *)
From Coq Require Import Reals.
From Coquelicot Require Import Coquelicot.
From Verif Require Export CalcPlain.
Set Implicit Arguments.
Open Scope nat_scope.

(* ---- specification: data flow.  true = the value depends on the inputs in a differentiable way ---- *)
(* the outputs of a primitive with a dependent operand (wrapped_functions.py:243-259, 297-442): sign, comparisons and logical operations do not propagate
   derivatives, and neither does the sign of a real determinant; everything else does *)
Definition carries (k : prim) (fs : list (op R)) : list bool :=
  match k with PConst _ => [false] | PSlogdet => [false; true] | PSlogC => [true; true] | POther _ => map (fun _ => true) fs | _ => [true] end.
(* literals do not depend on the inputs (no /repo code: specification) *)
Definition dlit (a : atom (nd R)) : atom bool := match a with AVar v => AVar v | ALit _ => ALit false end.
(* equality of lists of flags (no /repo code: specification) *)
Definition beqs (l m : list bool) : bool := if list_eq_dec Bool.bool_dec l m then true else false.
(* an equation with at least one dependent operand.  A scan needs independent scanned arrays and a carry that keeps its dependence; None otherwise
   (no /repo code: specification) *)
Fixpoint dep_of (k : @opk R prim) (fl : list bool) {struct k} : option (list bool) :=
  match k with
  | KPrim key fs => Some (carries key fs)
  | KCustom fs => Some (map (fun _ => true) fs)
  | KPjit name j => match name_prim name with Some key => Some (carries key (prim_ops key)) | None => dep_run j true fl end
  | KScan nc nk T rv j =>
    if existsb (fun b => b) (skipn (nc + nk) fl) then None else
    match dep_run j false (firstn nc fl ++ firstn nk (skipn nc fl) ++ skipn (nc + nk) fl) with
    | None => None
    | Some r => if beqs (firstn nk r) (firstn nk (skipn nc fl)) then Some r else None
    end
  end
(* a program: the flags of its outputs from the flags of its inputs (no /repo code: specification) *)
with dep_run (j : @jaxpr R prim) (closed : bool) (fl : list bool) {struct j} : option (list bool) :=
  match j with Jaxpr cvs ivs cs es os =>
    run0 (Code cvs ivs (map (fun e => match e with Eqn k i o => Instr (map dlit i) o (fun fl => if existsb (fun b => b) fl then dep_of k fl else Some (map (fun _ => false) o)) end) es) (map dlit os))
      (if closed then map (fun _ => false) cs else []) fl end.

(* ---- the rules ---- *)
Section Rules.
Context {A : Type} {RA : CRing A}.
Lemma als_flag (args : list (arg A)) : existsb (@is_al A) args = match als args with [] => false | _ => true end.
Proof. induction args as [|[a|x] l IH]; [reflexivity|reflexivity|]. cbn [existsb is_al orb]. exact IH. Qed.
Lemma wrap_flag (Q : rule A) c2r th args r : r_float Q = true -> wrap_fl Q c2r th args = Some r -> is_al r = existsb (@is_al A) args.
Proof.
  intros HF H. unfold wrap_fl in H. destruct (sequence _) as [axs|]; [|discriminate]. cbn [bind] in H. destruct (sequence _) as [eaxs|]; [|discriminate]. cbn [bind] in H. rewrite als_flag.
  destruct (als args) as [|a l] eqn:Ea; [injection H as <-; reflexivity|]. destruct (jvp_fn _ _ _ _ _ _ _) as [[[y g] lp]|]; [|discriminate]. cbn [bind] in H. destruct (jhj_trace _ _ _ _ _ _ _ _ _ _) as [h|]; [|discriminate]. cbn [bind] in H.
  destruct (bin radd lp h) as [l2|]; [|discriminate]. cbn [bind] in H. rewrite HF in H. injection H as <-. reflexivity.
Qed.
Lemma promote_flag c2r th k v r : promote c2r th k v = Some r -> is_al r = is_al v.
Proof. destruct k; cbn [promote]; intros H; [injection H as <-; reflexivity|]. apply wrap_flag in H; [|reflexivity]. rewrite H. cbn. apply orb_false_r. Qed.
Lemma mul_sum_flag c2r th ax u v r : mul_sum c2r th ax u v = Some r -> is_al r = is_al u || is_al v.
Proof.
  intros H. unfold mul_sum in H.
  destruct (promote c2r th _ u) as [u'|] eqn:Eu; [|discriminate]. cbn [bind] in H. destruct (promote c2r th _ v) as [v'|] eqn:Ev; [|discriminate]. cbn [bind] in H.
  destruct (wrap_fl mul_rule c2r th [u'; v']) as [m|] eqn:Em; [|discriminate]. cbn [bind] in H.
  apply promote_flag in Eu, Ev. apply wrap_flag in Em, H; try reflexivity. cbn [existsb] in *. rewrite !orb_false_r in *. congruence.
Qed.
Lemma dot_flag c2r th D u v r : dot_general c2r th D u v = Some r -> is_al r = is_al u || is_al v.
Proof.
  intros H. unfold dot_general in H. destruct (negb (is_al u) && negb (is_al v)) eqn:Ep.
  - injection H as <-. destruct (is_al u), (is_al v); try discriminate; reflexivity.
  - destruct (wrap_fl _ c2r th [u]) as [u'|] eqn:Eu; [|discriminate]. cbn [bind] in H. destruct (wrap_fl _ c2r th [v]) as [v'|] eqn:Ev; [|discriminate]. cbn [bind] in H.
    destruct (bshape2 _ _) as [it|]; [|discriminate]. cbn [bind] in H. apply wrap_flag in Eu, Ev; try reflexivity. cbn [existsb] in *. rewrite !orb_false_r in *.
    destruct (Nat.eqb _ _ && _); [destruct (special D _ _)|].
    + apply mul_sum_flag in H. exact H.
    + apply mul_sum_flag in H. congruence.
    + apply wrap_flag in H; [|reflexivity]. cbn [existsb] in H. rewrite orb_false_r in H. congruence.
Qed.
Lemma dotp_flag c2r th D args r : dot_prim c2r th D args = Some r -> is_al r = existsb (@is_al A) args.
Proof.
  unfold dot_prim. destruct args as [|u [|v [|? ?]]]; try discriminate. destruct (dot_general c2r th D u v) as [r0|] eqn:E; [|discriminate]. cbn. intros H. injection H as <-. apply dot_flag in E. rewrite orb_false_r, <- E. destruct r0; reflexivity.
Qed.
Lemma scat_flag g ok filled dims_ok ids c2r th args r : wrap_scatter g ok filled dims_ok ids c2r th args = Some r -> is_al r = existsb (@is_al A) args.
Proof.
  intros H. unfold wrap_scatter in H. destruct (sequence _) as [axs|]; [|discriminate]. cbn [bind] in H. destruct (sequence _) as [eaxs|]; [|discriminate]. cbn [bind] in H. rewrite als_flag.
  destruct (als args) as [|a l] eqn:Ea; [injection H as <-; reflexivity|]. destruct (jvp_scatter _ _ _ _ _ _ _ _ _) as [[[y g'] lp]|]; [|discriminate]. cbn [bind] in H. destruct (jhj_trace _ _ _ _ _ _ _ _ _ _) as [h|]; [|discriminate]. cbn [bind] in H.
  destruct (bin radd lp h) as [l2|]; [|discriminate]. cbn [bind] in H. injection H as <-. reflexivity.
Qed.
Lemma default_flags c2r (fs : list (op A)) th args outs : default_rule c2r fs th args = Some outs -> map (@is_al A) outs = map (fun _ => existsb (@is_al A) args) fs.
Proof.
  unfold default_rule. revert outs. induction fs as [|f fs IH]; intros outs H; cbn [map sequence] in H; [injection H as <-; reflexivity|].
  destruct (wrap_fl _ c2r th args) as [v|] eqn:Ev; [|discriminate]. destruct (sequence _) as [vs|]; [|discriminate]. cbn in H. injection H as <-. cbn [map]. rewrite (IH vs eq_refl). apply wrap_flag in Ev; [|reflexivity]. rewrite Ev. reflexivity.
Qed.
End Rules.
Lemma dec_flag v : is_al (dec v) = is_al v. Proof. destruct v; reflexivity. Qed.
Lemma enc_flag v : is_al (enc v) = is_al v. Proof. destruct v; reflexivity. Qed.
Lemma decs_flag l : existsb (@is_al (R * R)) (map dec l) = existsb (@is_al R) l.
Proof. induction l as [|v l IH]; [reflexivity|]. cbn [map existsb]. rewrite dec_flag, IH. reflexivity. Qed.
Lemma we_flag {A B} (phi : A -> B) args r : wrap_elementwise phi args = Some r -> is_al r = existsb (@is_al A) args.
Proof. unfold wrap_elementwise. destruct args as [|[a|x] [|? ?]]; try discriminate; intros H; injection H as <-; reflexivity. Qed.
Lemma ck_flag k c2r th args r : ck_run k c2r th args = Some r -> is_al r = existsb (@is_al (R * R)) args.
Proof. destruct k; cbn [ck_run]; intros H; try (apply wrap_flag in H; [exact H|reflexivity]). - apply dotp_flag in H. exact H. - apply scat_flag in H. exact H. Qed.
Lemma cx_flag k c2r th args r : cx_run k c2r th args = Some r -> is_al r = existsb (@is_al R) args.
Proof.
  destruct k as [k|k|]; cbn [cx_run]; intros H.
  - destruct (ck_run k c2r th (map dec args)) as [r0|] eqn:E; [|discriminate]. cbn in H. injection H as <-. rewrite enc_flag. apply ck_flag in E. rewrite decs_flag in E. exact E.
  - destruct k; cbn [cross_run] in H.
    + apply we_flag in H. rewrite decs_flag in H. exact H.
    + apply we_flag in H. rewrite decs_flag in H. exact H.
    + destruct (wrap_elementwise _ _) as [r0|] eqn:E; [|discriminate]. injection H as <-. apply we_flag in E. rewrite enc_flag, E. apply decs_flag.
    + destruct (wrap_elementwise _ _) as [r0|] eqn:E; [|discriminate]. injection H as <-. apply we_flag in E. rewrite enc_flag, E. reflexivity.
    + destruct args as [|v [|? ?]]; try discriminate. injection H as <-. cbn. rewrite orb_false_r. reflexivity.
  - unfold abs_run in H. destruct args as [|v [|? ?]]; try discriminate. unfold complex_abs in H. destruct (wrap_fl _ _ _ _) as [r0|] eqn:E; [|discriminate]. apply wrap_flag in E; [|reflexivity]. cbn [existsb] in *. rewrite dec_flag in E. rewrite <- E.
    destruct r0; cbn in H; injection H as <-; reflexivity.
Qed.
Theorem prim_flags c2r th k fs args outs : existsb (@is_al R) args = true -> eval_prim (prim_reg c2r) c2r k fs th args = Some outs -> map (@is_al R) outs = carries k fs.
Proof.
  intros HA H. unfold eval_prim in H. destruct k; cbn [prim_reg] in H; cbv beta in H; try (match type of H with one _ = _ => idtac end; apply one_some in H; destruct H as (r & Hr & ->); cbn [map carries]; f_equal; try (apply wrap_flag in Hr; [rewrite Hr; exact HA|reflexivity])).
  - apply dotp_flag in Hr. congruence.
  - unfold without_fl in Hr. injection Hr as <-. reflexivity.
  - destruct args as [|v [|? ?]]; try discriminate. unfold slogdet_wrapper in H. destruct (wrap_fl _ c2r 0%Z [v]) as [l|] eqn:E; [|discriminate]. cbn in H. injection H as <-. cbn [map carries is_al]. apply wrap_flag in E; [|reflexivity]. rewrite E, HA. reflexivity.
  - apply cx_flag in Hr. congruence.
  - apply missing_default in H. apply default_flags in H. rewrite H, HA. reflexivity.
  - apply scat_flag in Hr. congruence.
  - unfold slogC_run in H. destruct args as [|v [|? ?]]; try discriminate. destruct (slogdet_complex c2r th (dec v)) as [[a b]|] eqn:E; [|discriminate]. cbn in H. injection H as <-. unfold slogdet_complex in E. destruct (wrap_fl _ _ _ _) as [[l|x]|]; cbn in E; try discriminate. injection E as <- <-. reflexivity.
Qed.

(* ---- programs ---- *)
Definition dinstr (e : @eqn R prim) : instr bool := Instr (map dlit (ins_of e)) (outs_of e) (fun fl => if existsb (fun b => b) fl then dep_of (kind_of e) fl else Some (map (fun _ => false) (outs_of e))).
Definition dcode (j : @jaxpr R prim) : code bool := Code (j_cvs j) (j_ivs j) (map dinstr (j_es j)) (map dlit (j_os j)).
Lemma dep_run_eq j closed fl : dep_run j closed fl = run0 (dcode j) (if closed then map (fun _ => false) (j_cs j) else []) fl.
Proof. destruct j as [cvs ivs cs es os]. unfold dcode. cbn [j_cvs j_ivs j_cs j_es j_os dep_run]. f_equal. f_equal. apply map_ext. intros [k i o]. reflexivity. Qed.
Lemma beqs_eq l m : beqs l m = true <-> l = m.
Proof. unfold beqs. destruct (list_eq_dec _ l m); split; intros; auto; discriminate. Qed.
Lemma flags_exist {A} (l : list (arg A)) : existsb (fun b => b) (map (@is_al A) l) = existsb (@is_al A) l.
Proof. induction l as [|v l IH]; [reflexivity|]. cbn. rewrite IH. reflexivity. Qed.
Lemma plain_exist (l : list (arg R)) : forallb isplain l = negb (existsb (@is_al R) l).
Proof. induction l as [|v l IH]; [reflexivity|]. cbn [forallb existsb]. rewrite IH. unfold isplain. destruct (is_al v); reflexivity. Qed.
Lemma plain_flags (l : list (arg R)) : existsb (@is_al R) l = false -> map (@is_al R) l = map (fun _ => false) l.
Proof. induction l as [|v l IH]; [reflexivity|]. cbn. intros H. apply orb_false_iff in H. destruct H as [-> H]. rewrite IH by exact H. reflexivity. Qed.
Definition denv (E : @env0 (arg R)) (B : @env0 bool) : Prop := forall v, B v = option_map (@is_al R) (E v).
Lemma denv_read E B l : denv E B -> read0_many B (map dlit l) = option_map (map (@is_al R)) (read0_many E (map (@plain_atom R) l)).
Proof.
  intros HE. induction l as [|a l IH]; [reflexivity|]. cbn [map read0_many]. rewrite IH. assert (Ea : read0 B (dlit a) = option_map (@is_al R) (read0 E (plain_atom a))) by (destruct a as [v|x]; [apply HE|reflexivity]). rewrite Ea.
  destruct (read0 E (plain_atom a)) as [x|]; [|reflexivity]. cbn [option_map]. destruct (read0_many E _) as [xs|]; reflexivity.
Qed.
Lemma denv_write vs : forall E B xs E1, denv E B -> write0_many E vs xs = Some E1 -> exists B1, write0_many B vs (map (@is_al R) xs) = Some B1 /\ denv E1 B1.
Proof.
  induction vs as [|v vs IH]; intros E B [|x xs] E1 HE H; cbn in H; try discriminate; [injection H as <-; exists B; auto|]. cbn [map write0_many]. apply (IH (vset E v (Some x)) (vset B v (Some (is_al x))) xs E1); [|exact H].
  intros w. unfold vset. destruct (Nat.eqb w v); [reflexivity|apply HE].
Qed.
Lemma write0_len {V} vs : forall (E : @env0 V) xs E1, write0_many E vs xs = Some E1 -> length xs = length vs.
Proof. induction vs as [|v vs IH]; intros E [|x xs] E1 H; cbn in H; try discriminate; [reflexivity|]. cbn. f_equal. apply (IH _ _ _ H). Qed.
Lemma const_flags {X Y} (l : list X) (m : list Y) : length l = length m -> map (fun _ => false) l = map (fun _ => false) m.
Proof. revert m. induction l as [|x l IH]; intros [|y m] H; try discriminate; [reflexivity|]. cbn. f_equal. apply IH. injection H as H. exact H. Qed.
Section Prog.
Context (c2r : bool) (th : Z).
Notation step := (step_of (prim_reg c2r) (name_reg c2r) c2r false th).
Notation jeval := (jrun (prim_reg c2r) (name_reg c2r) c2r false th).
Notation instr_at := (instr_of (prim_reg c2r) (name_reg c2r) c2r false th).
Definition dep_good (k : @opk R prim) : Prop := forall args rs, existsb (@is_al R) args = true -> step k args = Some rs -> dep_of k (map (@is_al R) args) = Some (map (@is_al R) rs).
Lemma dep_runs j : (forall k, In k (subops j) -> dep_good k) -> forall closed args rs, jeval j closed args = Some rs -> dep_run j closed (map (@is_al R) args) = Some (map (@is_al R) rs).
Proof.
  intros HK closed args rs H. rewrite dep_run_eq. rewrite jrun_eq in H. unfold runb, run0, init0 in *. cbn [code_of dcode c_consts c_ins c_eqns c_outs] in *.
  assert (HC : (if closed then map (fun _ : nd R => false) (j_cs j) else []) = map (@is_al R) (consts_of j closed)) by (unfold consts_of; destruct closed; [rewrite map_map|]; reflexivity). rewrite HC.
  destruct (write0_many (fun _ => None) (j_cvs j) (consts_of j closed)) as [E1|] eqn:W1; [|discriminate]. destruct (@denv_write _ (fun _ => None) (fun _ => None) _ _ (fun _ => eq_refl) W1) as (B1 & V1 & D1). rewrite V1.
  destruct (write0_many E1 (j_ivs j) args) as [E2|] eqn:W2; [|discriminate]. destruct (@denv_write _ _ _ _ _ D1 W2) as (B2 & V2 & D2). rewrite V2.
  destruct (exec0 E2 _) as [E3|] eqn:X; [|discriminate].
  assert (HX : exists B3, exec0 B2 (map dinstr (j_es j)) = Some B3 /\ denv E3 B3).
  { clear -HK D2 X. unfold subops in HK. revert E2 B2 D2 X. induction (j_es j) as [|e es IH]; intros E2 B2 D2 X; cbn [map exec0] in *; [injection X as <-; exists B2; auto|].
    unfold exec0_1 in *. cbn [instr_of dinstr i_in i_out i_step] in *. rewrite (@denv_read _ _ (ins_of e) D2). destruct (read0_many E2 _) as [xs|]; [|discriminate]. cbn [option_map]. rewrite flags_exist.
    destruct (step (kind_of e) xs) as [ys|] eqn:ES; [|discriminate]. destruct (write0_many E2 (outs_of e) ys) as [E4|] eqn:W; [|discriminate].
    assert (EF : (if existsb (@is_al R) xs then dep_of (kind_of e) (map (@is_al R) xs) else Some (map (fun _ => false) (outs_of e))) = Some (map (@is_al R) ys)).
    { destruct (existsb (@is_al R) xs) eqn:Ex.
      - apply (HK (kind_of e) ltac:(left; destruct e; reflexivity)); assumption.
      - rewrite step_if, plain_exist, Ex in ES. cbn [negb] in ES. destruct (plain_of _ _) as [ps|]; [|discriminate]. cbn in ES. injection ES as <-. rewrite map_map. cbn [is_al]. f_equal. apply const_flags. rewrite <- (write0_len _ _ _ W), map_length. reflexivity. }
    rewrite EF. destruct (@denv_write _ _ _ _ _ D2 W) as (B4 & V4 & D4). rewrite V4. apply (IH (fun k Hk => HK k (or_intror Hk)) E4 B4 D4 X). }
  destruct HX as (B3 & -> & D3). rewrite (@denv_read _ _ (j_os j) D3), H. reflexivity.
Qed.
Lemma firstn_map {X Y} (f : X -> Y) n l : firstn n (map f l) = map f (firstn n l).
Proof. revert l. induction n as [|n IH]; intros [|x l]; cbn; congruence. Qed.
Lemma skipn_map {X Y} (f : X -> Y) n l : skipn n (map f l) = map f (skipn n l).
Proof. revert l. induction n as [|n IH]; intros [|x l]; cbn; auto. Qed.
Lemma same_flags (l : list (arg R)) : forall m, Interp.all2 (@same_type R) l m = true -> map (@is_al R) m = map (@is_al R) l.
Proof. induction l as [|a l IH]; intros [|b m] H; cbn in H; try discriminate; [reflexivity|]. apply andb_true_iff in H. destruct H as [H1 H2]. cbn. f_equal; [|apply IH; exact H2]. destruct a, b; cbn in *; congruence. Qed.
Lemma match_same (l : list (arg R)) : forall m, Interp.all2 (@carry_match R) l m = true -> Interp.all2 (@same_type R) l m = true.
Proof. induction l as [|a l IH]; intros [|b m] H; cbn in H; try discriminate; [reflexivity|]. apply andb_true_iff in H. destruct H as [H1 H2]. unfold carry_match in H1. apply andb_true_iff in H1. cbn. rewrite (proj1 H1). apply IH; exact H2. Qed.
Lemma set_flags (c : list (arg R)) : forall l, length c = length l -> map (@is_al R) (map2 (@set_idx R) c l) = map (@is_al R) c.
Proof. induction c as [|a c IH]; intros [|b l] H; try discriminate; [reflexivity|]. cbn [map2 map]. rewrite IH by (injection H as H; exact H). destruct a, b; reflexivity. Qed.
Lemma all2_len {X} (f : X -> X -> bool) l : forall m, Interp.all2 f l m = true -> length m = length l.
Proof. induction l as [|a l IH]; intros [|b m] H; cbn in H; try discriminate; [reflexivity|]. apply andb_true_iff in H. cbn. f_equal. apply IH. apply H. Qed.
Lemma stack_flags (ys : list (list (arg R))) : map (@is_al R) (map (@stack_arg R CRing_R) (cols (AX nd0) ys)) = map (@is_al R) (hd [] ys).
Proof.
  unfold cols. rewrite !map_map. destruct ys as [|y ys]; [reflexivity|]. cbn [hd]. assert (E : forall jj, is_al (stack_arg (col (AX nd0) (y :: ys) jj)) = is_al (nth jj y (AX nd0))) by (intros jj; unfold stack_arg, col; cbn [map hd]; destruct (nth jj y (AX nd0)); reflexivity).
  transitivity (map (fun jj => is_al (nth jj y (AX nd0))) (seq 0 (length y))); [apply map_ext; intros jj; apply E|]. rewrite <- (map_map (fun jj => nth jj y (AX nd0)) (@is_al R)). f_equal. clear. induction y as [|v y IH]; [reflexivity|]. cbn [length seq map nth]. f_equal. rewrite <- seq_shift, map_map. exact IH.
Qed.
Lemma dep_all k : dep_good k.
Proof.
  apply (@opk_all R prim dep_good); clear k.
  - intros key fs args rs HA H. rewrite step_if, plain_exist, HA in H. cbn [negb] in H. cbn [dep_of]. f_equal. symmetry. apply (@prim_flags c2r th key fs args rs HA H).
  - intros fs args rs HA H. rewrite step_if, plain_exist, HA in H. cbn [negb] in H. cbn [dep_of]. f_equal. apply list_default in H. apply default_flags in H. rewrite H, HA. reflexivity.
  - intros name j IH args rs HA H. rewrite step_if, plain_exist, HA in H. cbn [negb] in H. change (match name_prim name with Some key => Some (carries key (prim_ops key)) | None => dep_run j true (map (@is_al R) args) end = Some (map (@is_al R) rs)).
    destruct (name_prim name) as [key|] eqn:Ek.
    + destruct (@name_regs c2r name key Ek) as (rl & E1 & E2). rewrite E1 in H. f_equal. symmetry. apply (@prim_flags c2r th key (prim_ops key) args rs HA). unfold eval_prim. rewrite E2. exact H.
    + unfold name_reg in H. rewrite Ek in H. apply (@dep_runs j IH true args rs H).
  - intros nc nk T rv j IH args rs HA H. rewrite step_if, plain_exist, HA in H. cbn [negb] in H. pose proof (@dep_runs j IH false) as HR.
    change ((if existsb (fun b => b) (skipn (nc + nk) (map (@is_al R) args)) then None else
      match dep_run j false (firstn nc (map (@is_al R) args) ++ firstn nk (skipn nc (map (@is_al R) args)) ++ skipn (nc + nk) (map (@is_al R) args)) with None => None | Some r => if beqs (firstn nk r) (firstn nk (skipn nc (map (@is_al R) args))) then Some r else None end) = Some (map (@is_al R) rs)).
    rewrite !skipn_map, !firstn_map, flags_exist. unfold eval_scan in H. destruct (Nat.eqb_spec T 0) as [|HT]; [discriminate|]. cbv zeta in H.
    set (cons := firstn nc args) in *. set (carry := firstn nk (skipn nc args)) in *. set (inp := skipn (nc + nk) args) in *.
    change (forallb (fun v : arg R => negb (is_al v)) inp) with (forallb isplain inp) in H. rewrite plain_exist in H. destruct (existsb (@is_al R) inp) eqn:Ei; [discriminate|]. cbn [negb] in H.
    set (rowsat := fun t => map (fun x : arg R => AX (row (aval x) t)) inp). assert (HI : forall t, map (@is_al R) inp = map (@is_al R) (rowsat t)) by (intros t; unfold rowsat; rewrite map_map, (plain_flags _ Ei); reflexivity).
    assert (HS : forall c t r, map (@is_al R) c = map (@is_al R) carry -> length c = length carry -> jeval j false (cons ++ map2 (@set_idx R) c carry ++ map (fun x : arg R => AX (row (aval x) t)) inp) = Some r ->
       dep_run j false (map (@is_al R) cons ++ map (@is_al R) carry ++ map (@is_al R) inp) = Some (map (@is_al R) r)).
    { intros c t r Hc Hl Hr. apply HR in Hr. rewrite !map_app, (set_flags _ _ Hl), Hc in Hr. rewrite (HI t). exact Hr. }
    destruct (jeval j false _) as [r0|] eqn:E0 in H; [|discriminate]. pose proof (HS carry 0 r0 eq_refl eq_refl E0) as HD. rewrite HD.
    destruct (Interp.all2 (@carry_match R) carry (firstn nk r0)) eqn:EM; [|discriminate]. cbn [negb] in H. pose proof (same_flags _ _ (match_same _ _ EM)) as HF. rewrite firstn_map, HF, (proj2 (beqs_eq _ _) eq_refl).
    match type of H with match loop ?st _ _ with _ => _ end = _ => set (stp := st) in * end. destruct (loop stp (order T rv) carry) as [[c ys]|] eqn:EL; [|discriminate].
    assert (HL : forall ts c0 c ys, map (@is_al R) c0 = map (@is_al R) carry -> length c0 = length carry -> loop stp ts c0 = Some (c, ys) -> map (@is_al R) c = map (@is_al R) carry /\ length c = length carry /\ length ys = length ts /\ Forall (fun y => map (@is_al R) y = map (@is_al R) (skipn nk r0)) ys).
    { clear EL c ys H. induction ts as [|t ts IHt]; intros c0 c ys Hc Hl HL; cbn [loop] in HL; [injection HL as <- <-; repeat split; auto|]. unfold stp at 1 in HL. cbv beta in HL.
      destruct (jeval j false _) as [r1|] eqn:E1 in HL; [|discriminate]. pose proof (HS c0 t r1 Hc Hl E1) as HD1. rewrite HD in HD1. injection HD1 as HD1.
      destruct (Interp.all2 (@same_type R) carry (firstn nk r1)) eqn:ET; [|discriminate]. destruct (loop stp ts _) as [[c2 ys2]|] eqn:EL2; [|discriminate]. injection HL as <- <-.
      destruct (IHt _ _ _ (same_flags _ _ ET) (all2_len _ _ _ ET) EL2) as (I1 & I2 & I3 & I4). split; [exact I1|]. split; [exact I2|]. split; [cbn; congruence|]. constructor; [|exact I4]. rewrite <- !skipn_map, HD1. reflexivity. }
    destruct (HL _ _ _ _ eq_refl eq_refl EL) as (L1 & L2 & L3 & L4). injection H as <-. f_equal. rewrite map_app, set_flags, L1, stack_flags.
    2:{ rewrite L2. symmetry. apply (all2_len _ _ _ EM). }
    rewrite <- (firstn_skipn nk r0) at 1. rewrite map_app, HF. f_equal.
    assert (Hy : In (hd [] (unorder rv ys)) ys).
    { assert (Hlen : length ys <> 0) by (rewrite L3; unfold order; destruct rv; rewrite ?rev_length, seq_length; exact HT). unfold unorder. destruct rv.
      - destruct (rev ys) as [|y l] eqn:Er; [apply (f_equal (@length _)) in Er; rewrite rev_length in Er; cbn in Er; lia|]. cbn. apply in_rev. rewrite Er. left. reflexivity.
      - destruct ys as [|y l]; [cbn in Hlen; lia|left; reflexivity]. }
    rewrite Forall_forall in L4. symmetry. apply L4. exact Hy.
Qed.
(* whatever the threshold: what the interpreter returns is a FwdLaplArray exactly where the data flow says so *)
Theorem dep_exact j closed args rs : jeval j closed args = Some rs -> dep_run j closed (map (@is_al R) args) = Some (map (@is_al R) rs).
Proof. apply dep_runs. intros k _. apply dep_all. Qed.
End Prog.
