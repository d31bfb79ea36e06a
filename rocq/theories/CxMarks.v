(* CxMarks.v : which values of a program store complex arrays.  In the model a complex array is stored as a real array with a trailing axis of length 2
   (CplxEnc.v); the two components of an element share one index of the sparse Jacobian ([paired]).  In folx this holds by construction, because a complex
   element is one number.  Here it is a fact about the interpreter: whatever is computed by functions that return complex arrays is paired.
   Nothing in this file models code of /repo: it is data flow on the program text, and the proof that the interpreter follows it. *)
From Coq Require Import Reals.
From Coquelicot Require Import Coquelicot.
From Verif Require Export DepCalc.
Set Implicit Arguments.
Open Scope nat_scope.

(* ---- specification: data flow.  true = the value is a constant or was returned by a function with complex results ---- *)
(* all operands are marked (no /repo code: specification) *)
Definition need (ms : list bool) (r : list bool) : option (list bool) := if forallb (fun b => b) ms then Some r else None.
(* functions of complex arrays need marked operands; None: a function of complex arrays is applied to an array of real numbers (no /repo code: specification) *)
Definition mk_prim (k : prim) (ms : list bool) : option (list bool) :=
  match k with
  | PConst _ => Some [true]
  | PCplx c => match c with
      | CKern _ => need ms [true]
      | CCross x => match x with XRe | XIm => need ms [false] | XConj => need ms [true] | XComplex => Some [true] | XFloat => Some ms end
      | CAbs => need ms [false]
      end
  | PSlogC => need ms [true; false]
  | PSlogdet => Some [true; false]
  | _ => Some [false]
  end.
(* literals are constants (no /repo code: specification) *)
Definition mlit (a : atom (nd R)) : atom bool := match a with AVar v => AVar v | ALit _ => ALit true end.
(* every mark of c is a mark of r (no /repo code: specification) *)
Definition mle (c r : list bool) : bool := forallb (fun i => implb (nth i c false) (nth i r false)) (seq 0 (length c)).
(* the marks common to c and r (no /repo code: specification) *)
Definition mand (c r : list bool) : list bool := map (fun i => andb (nth i c false) (nth i r false)) (seq 0 (length c)).
(* marks of a carry that the body of a scan keeps, at most those of the initial carry (no /repo code: specification) *)
Fixpoint mfix (body : list bool -> option (list bool)) (nk fuel : nat) (c : list bool) : option (list bool * list bool) :=
  match body c with
  | None => None
  | Some r => if mle c (firstn nk r) then Some (c, r) else match fuel with O => None | S f => mfix body nk f (mand c (firstn nk r)) end
  end.
(* an equation (no /repo code: specification) *)
Fixpoint mk_of (k : @opk R prim) (ms : list bool) {struct k} : option (list bool) :=
  match k with
  | KPrim key fs => mk_prim key ms
  | KCustom fs => Some (map (fun _ => false) fs)
  | KPjit name j => match name_prim name with Some key => mk_prim key ms | None => mk_run j true ms end
  | KScan nc nk T rv j =>
    match mfix (fun c => mk_run j false (firstn nc ms ++ c ++ map (fun _ => true) (skipn (nc + nk) ms))) nk (S nk) (firstn nk (skipn nc ms)) with
    | None => None | Some (c, r) => Some (c ++ map (fun _ => false) (skipn nk r)) end
  end
(* a program (no /repo code: specification) *)
with mk_run (j : @jaxpr R prim) (closed : bool) (ms : list bool) {struct j} : option (list bool) :=
  match j with Jaxpr cvs ivs cs es os =>
    run0 (Code cvs ivs (map (fun e => match e with Eqn k i o => Instr (map mlit i) o (mk_of k) end) es) (map mlit os)) (if closed then map (fun _ => true) cs else []) ms end.

(* ---- proof ---- *)
Definition mokw (ms : list bool) (vs : list (arg R)) : Prop := forall i, nth i ms false = true -> paired (nth i vs (AX nd0)).
Definition mok (ms : list bool) (vs : list (arg R)) : Prop := length ms = length vs /\ mokw ms vs.
Definition menv (M : @env0 bool) (E : @env0 (arg R)) : Prop := forall v a, M v = Some true -> E v = Some a -> paired a.
Lemma mok_need ms vs r r' : mok ms vs -> need ms r = Some r' -> Forall paired vs /\ r' = r.
Proof.
  intros [HL H] HN. unfold need in HN. destruct (forallb (fun b => b) ms) eqn:E; [|discriminate]. injection HN as <-. split; [|reflexivity]. apply Forall_forall. intros v Hv. destruct (In_nth _ _ (AX nd0) Hv) as (i & Hi & <-). apply H.
  rewrite forallb_forall in E. apply E. apply nth_In. lia.
Qed.
Lemma mokw_plain ms vs : forallb isplain vs = true -> mokw ms vs.
Proof. intros H i _. destruct (Nat.lt_ge_cases i (length vs)) as [Hi|Hi]; [|rewrite nth_overflow by exact Hi; exact I]. rewrite forallb_forall in H. specialize (H _ (nth_In _ (AX nd0) Hi)). destruct (nth i vs (AX nd0)); [discriminate|exact I]. Qed.
Lemma mokw_AX ms xs : mokw ms (map (@AX R) xs).
Proof. apply mokw_plain. apply forallb_forall. intros v Hv. apply in_map_iff in Hv. destruct Hv as (x & <- & _). reflexivity. Qed.
Lemma mok_nil : mok [] []. Proof. split; [reflexivity|]. intros i Hi. destruct i; discriminate. Qed.
Lemma mok_cons b ms v vs : mok (b :: ms) (v :: vs) <-> (b = true -> paired v) /\ mok ms vs.
Proof.
  unfold mok, mokw. split.
  - intros [HL H]. split; [exact (H 0)|]. split; [cbn in HL; lia|]. intros i. exact (H (S i)).
  - intros [H1 [HL H]]. split; [cbn; lia|]. intros [|i]; [exact H1|exact (H i)].
Qed.
Lemma mok_app ms vs ms' vs' : mok ms vs -> mok ms' vs' -> mok (ms ++ ms') (vs ++ vs').
Proof. revert vs. induction ms as [|b ms IH]; intros [|v vs] [HL H] H'; cbn in HL; try discriminate; cbn [app]; [exact H'|]. apply mok_cons. destruct (proj1 (mok_cons b ms v vs) (conj HL H)) as [K1 K2]. split; [exact K1|]. apply IH; assumption. Qed.
Lemma mok_firstn k ms vs : mok ms vs -> mok (firstn k ms) (firstn k vs).
Proof. revert ms vs. induction k as [|k IH]; intros ms vs H; [apply mok_nil|]. destruct ms as [|b ms], vs as [|v vs]; try (destruct H; discriminate); [apply mok_nil|]. cbn [firstn]. apply mok_cons in H. apply mok_cons. split; [apply H|apply IH; apply H]. Qed.
Lemma mok_skipn k ms vs : mok ms vs -> mok (skipn k ms) (skipn k vs).
Proof. revert ms vs. induction k as [|k IH]; intros ms vs H; [exact H|]. destruct ms as [|b ms], vs as [|v vs]; try (destruct H; discriminate); [apply mok_nil|]. cbn [skipn]. apply mok_cons in H. apply IH. apply H. Qed.
Lemma menv_read M E l : menv M E -> forall ms xs, read0_many M (map mlit l) = Some ms -> read0_many E (map (@plain_atom R) l) = Some xs -> mok ms xs.
Proof.
  intros HE. induction l as [|a l IH]; cbn [map read0_many]; intros ms xs H1 H2.
  - injection H1 as <-. injection H2 as <-. apply mok_nil.
  - destruct (read0 M (mlit a)) as [b|] eqn:Eb; [|discriminate]. destruct (read0_many M _) as [ms'|]; [|discriminate]. injection H1 as <-.
    destruct (read0 E (plain_atom a)) as [x|] eqn:Ex; [|discriminate]. destruct (read0_many E _) as [xs'|]; [|discriminate]. injection H2 as <-. apply mok_cons. split; [|apply IH; reflexivity].
    intros ->. destruct a as [v|y]; cbn in *; [apply (HE v); assumption|]. injection Ex as <-. exact I.
Qed.
Lemma menv_write vs : forall M E ms xs M1 E1, menv M E -> mokw ms xs -> write0_many M vs ms = Some M1 -> write0_many E vs xs = Some E1 -> menv M1 E1.
Proof.
  induction vs as [|v vs IH]; intros M E [|b ms] [|x xs] M1 E1 HE Hx H1 H2; cbn [write0_many] in *; try discriminate.
  - injection H1 as <-. injection H2 as <-. exact HE.
  - apply (IH (vset M v (Some b)) (vset E v (Some x)) ms xs M1 E1); auto.
    + intros u a. unfold vset. destruct (Nat.eqb_spec u v) as [Eu|Eu]; [|apply HE]. intros [= ->] [= <-]. exact (Hx 0 eq_refl).
    + intros i. exact (Hx (S i)).
Qed.
Lemma mk_run_eq j closed ms : mk_run j closed ms =
  run0 (Code (j_cvs j) (j_ivs j) (map (fun e => Instr (map mlit (ins_of e)) (outs_of e) (mk_of (kind_of e))) (j_es j)) (map mlit (j_os j))) (if closed then map (fun _ => true) (j_cs j) else []) ms.
Proof. destruct j as [cvs ivs cs es os]. cbn [mk_run j_cvs j_ivs j_cs j_es j_os]. f_equal. f_equal. apply map_ext. intros [k i o]. reflexivity. Qed.
Lemma mle_nth c r i : mle c r = true -> nth i c false = true -> nth i r false = true.
Proof.
  intros H Hi. destruct (Nat.lt_ge_cases i (length c)) as [L|L]; [|rewrite nth_overflow in Hi by exact L; discriminate]. unfold mle in H. rewrite forallb_forall in H. specialize (H i ltac:(apply in_seq; lia)). rewrite Hi in H. cbn in H. exact H.
Qed.
Lemma mand_len c r : length (mand c r) = length c. Proof. unfold mand. rewrite map_length, seq_length. reflexivity. Qed.
Lemma mand_nth c r i : nth i (mand c r) false = true -> nth i c false = true.
Proof.
  intros H. destruct (Nat.lt_ge_cases i (length c)) as [L|L]; [|rewrite nth_overflow in H by (rewrite mand_len; exact L); discriminate]. unfold mand in H.
  rewrite (@nth_map_in _ _ (fun i => andb (nth i c false) (nth i r false)) (seq 0 (length c)) i 0 false) in H by (rewrite seq_length; exact L). rewrite seq_nth in H by exact L. cbn in H. apply andb_true_iff in H. apply H.
Qed.
Lemma mfix_spec body nk fuel : forall c c' r, mfix body nk fuel c = Some (c', r) -> body c' = Some r /\ mle c' (firstn nk r) = true /\ length c' = length c /\ forall i, nth i c' false = true -> nth i c false = true.
Proof.
  induction fuel as [|f IH]; intros c c' r H; cbn [mfix] in H; destruct (body c) as [r0|] eqn:Eb; try discriminate; destruct (mle c (firstn nk r0)) eqn:El; try discriminate.
  - injection H as <- <-. auto.
  - injection H as <- <-. auto.
  - destruct (IH _ _ _ H) as (A & B & C & D). split; [exact A|]. split; [exact B|]. split; [rewrite mand_len in C; exact C|]. intros i Hi. apply (mand_nth c (firstn nk r0)). apply D. exact Hi.
Qed.
Lemma enc_paired w : paired (enc w).
Proof. destruct w as [a|x]; [|exact I]. cbn. destruct (jidx (ljac a)) as [m|]; cbn; [|exact I]. intros p. rewrite !rl. reflexivity. Qed.
Lemma set_paired (v u : arg R) : paired v -> paired u -> paired (set_idx v u).
Proof. destruct v as [a|x], u as [b|y]; cbn; auto. Qed.
Lemma set_nth_paired (vs us : list (arg R)) i : paired (nth i vs (AX nd0)) -> paired (nth i us (AX nd0)) -> paired (nth i (map2 (@set_idx R) vs us) (AX nd0)).
Proof. revert us i. induction vs as [|v vs IH]; intros [|u us] [|i]; cbn; try exact (fun _ _ => I); [apply set_paired|apply IH]. Qed.
Section Run.
Context (c2r : bool) (th : Z).
Notation reg := (prim_reg c2r). Notation nreg := (name_reg c2r).
Notation step := (step_of reg nreg c2r false th). Notation jeval := (jrun reg nreg c2r false th). Notation instr_at := (instr_of reg nreg c2r false th).
Definition marked (k : @opk R prim) : Prop := forall ms ms' args rs, mok ms args -> mk_of k ms = Some ms' -> step k args = Some rs -> mokw ms' rs.
Lemma one_cases (o : option (arg R)) rs : one o = Some rs -> exists r, o = Some r /\ rs = [r].
Proof. intros H. apply one_some in H. destruct H as (r & H1 & H2). eauto. Qed.
Lemma mokw_false rs : mokw [false] rs. Proof. intros [|[|i]]; discriminate. Qed.
Lemma mokw_one b r : (b = true -> paired r) -> mokw [b] [r].
Proof. intros H [|[|i]]; cbn; [exact H|discriminate|discriminate]. Qed.
Lemma prim_marked key rl ms ms' args rs : mok ms args -> mk_prim key ms = Some ms' -> reg key = Some rl -> rl th args = Some rs -> mokw ms' rs.
Proof.
  intros HM HK HR H. destruct key; cbn [mk_prim prim_reg] in *; try discriminate HR; injection HR as <-; try (injection HK as <-; apply mokw_false).
  - injection HK as <-. cbn in H. injection H as <-. apply mokw_one. intros _. exact I.
  - injection HK as <-. destruct args as [|v [|? ?]]; try discriminate. destruct (slogdet_wrapper _ _ _ _ _ _) as [[sgn lg]|] eqn:ES; [|discriminate]. cbn in H. injection H as <-. intros [|[|[|i]]]; cbn; try discriminate. intros _.
    unfold slogdet_wrapper in ES. destruct v as [a|x]; [|injection ES as <- <-; exact I]. destruct (wrap_fl _ _ _ _) as [w|]; [|discriminate]. cbn in ES. injection ES as <- <-. exact I.
  - apply one_cases in H. destruct H as (r & H & ->). destruct c as [k|k|]; cbn [cx_run] in H.
    + destruct (mok_need _ HM HK) as [_ ->]. destruct (ck_run _ _ _ _) as [w|]; [|discriminate]. injection H as <-. apply mokw_one. intros _. apply enc_paired.
    + destruct k; cbn [cross_run] in H.
      * destruct (mok_need _ HM HK) as [_ ->]. apply mokw_false.
      * destruct (mok_need _ HM HK) as [_ ->]. apply mokw_false.
      * destruct (mok_need _ HM HK) as [_ ->]. destruct (wrap_elementwise _ _) as [w|]; [|discriminate]. injection H as <-. apply mokw_one. intros _. apply enc_paired.
      * injection HK as <-. destruct (wrap_elementwise _ _) as [w|]; [|discriminate]. injection H as <-. apply mokw_one. intros _. apply enc_paired.
      * injection HK as <-. destruct args as [|v [|? ?]]; try discriminate. injection H as <-. apply HM.
    + destruct (mok_need _ HM HK) as [_ ->]. apply mokw_false.
  - destruct (mok_need _ HM HK) as [_ ->]. unfold slogC_run in H. destruct args as [|v [|? ?]]; try discriminate. destruct (slogdet_complex _ _ _) as [[p l]|]; [|discriminate]. cbn in H. injection H as <-. intros [|[|[|i]]]; cbn; try discriminate. intros _. apply enc_paired.
Qed.
Lemma plain_marked k ms' args rs : forallb isplain args = true -> step k args = Some rs -> mokw ms' rs.
Proof. intros Hp H. rewrite step_if, Hp in H. destruct (plain_of k _) as [ys|]; [|discriminate]. injection H as <-. apply mokw_AX. Qed.
Lemma exec_marked es : (forall e, In e es -> marked (kind_of e)) -> forall M E M1 E1, menv M E ->
  exec0 M (map (fun e => Instr (map mlit (ins_of e)) (outs_of e) (mk_of (kind_of e))) es) = Some M1 -> exec0 E (map instr_at es) = Some E1 -> menv M1 E1.
Proof.
  induction es as [|e es IH]; intros HL M E M1 E1 HE H1 H2; cbn [map exec0] in *; [injection H1 as <-; injection H2 as <-; exact HE|].
  unfold exec0_1 in H1 at 1. unfold exec0_1 in H2 at 1. cbn [i_in i_out i_step instr_of] in *.
  destruct (read0_many M (map mlit (ins_of e))) as [ms|] eqn:Rm; [|discriminate]. destruct (mk_of (kind_of e) ms) as [ms'|] eqn:Km; [|discriminate]. destruct (write0_many M (outs_of e) ms') as [M2|] eqn:Wm; [|discriminate].
  destruct (read0_many E (map (@plain_atom R) (ins_of e))) as [xs|] eqn:Re; [|discriminate]. destruct (step (kind_of e) xs) as [ys|] eqn:Ke; [|discriminate]. destruct (write0_many E (outs_of e) ys) as [E2|] eqn:We; [|discriminate].
  apply (IH (fun e' He => HL e' (or_intror He)) M2 E2 M1 E1); auto. apply (@menv_write (outs_of e) M E ms' ys M2 E2 HE); auto. apply (HL e (or_introl eq_refl) ms ms' xs ys); auto. apply (@menv_read M E (ins_of e) HE ms xs Rm Re).
Qed.
Definition marked_run (j : @jaxpr R prim) : Prop := forall closed ms ms' args rs, mokw ms args -> mk_run j closed ms = Some ms' -> jeval j closed args = Some rs -> mok ms' rs.
Lemma run_marked j : (forall k, In k (subops j) -> marked k) -> marked_run j.
Proof.
  intros HL closed ms ms' args rs HM H1 H2. rewrite mk_run_eq in H1. rewrite jrun_eq in H2. unfold runb, run0, init0 in *. cbn [code_of c_consts c_ins c_eqns c_outs] in *.
  destruct (write0_many (fun _ => None) (j_cvs j) (if closed then map (fun _ => true) (j_cs j) else [])) as [M0|] eqn:A1; [|discriminate]. destruct (write0_many M0 (j_ivs j) ms) as [M1|] eqn:A2; [|discriminate]. destruct (exec0 M1 _) as [M2|] eqn:A3; [|discriminate].
  destruct (write0_many (fun _ => None) (j_cvs j) (consts_of j closed)) as [E0|] eqn:B1; [|discriminate]. destruct (write0_many E0 (j_ivs j) args) as [E1|] eqn:B2; [|discriminate]. destruct (exec0 E1 _) as [E2|] eqn:B3; [|discriminate].
  assert (HC : exists cs, consts_of j closed = map (@AX R) cs) by (unfold consts_of; destruct closed; [eexists; reflexivity|exists []; reflexivity]). destruct HC as (cs & HC). rewrite HC in B1.
  assert (K0 : menv M0 E0) by (refine (@menv_write _ _ _ _ _ _ _ _ (mokw_AX _ cs) A1 B1); intros v a H; discriminate).
  assert (K1 : menv M1 E1) by exact (@menv_write _ _ _ _ _ _ _ K0 HM A2 B2).
  assert (K2 : menv M2 E2). { refine (@exec_marked (j_es j) _ M1 E1 M2 E2 K1 A3 B3). intros e He. apply HL. unfold subops. apply in_map_iff. exists e. split; [destruct e; reflexivity|exact He]. }
  exact (@menv_read M2 E2 (j_os j) K2 ms' rs H1 H2).
Qed.
(* one iteration of a scan keeps the marks of the carry *)
Lemma jrun_isplain j closed args rs : forallb isplain args = true -> jeval j closed args = Some rs -> forallb isplain rs = true.
Proof. intros Hp H. rewrite (plain_map _ Hp), jrun_plain in H. destruct (plain_run j closed _) as [ys|]; [|discriminate]. injection H as <-. apply forallb_forall. intros v Hv. apply in_map_iff in Hv. destruct Hv as (x & <- & _). reflexivity. Qed.
Lemma forallb_app' {X} (p : X -> bool) l m : forallb p l = true -> forallb p m = true -> forallb p (l ++ m) = true.
Proof. intros H1 H2. rewrite forallb_app, H1, H2. reflexivity. Qed.
Lemma forallb_firstn {X} (p : X -> bool) k l : forallb p l = true -> forallb p (firstn k l) = true.
Proof. intros H. rewrite <- (firstn_skipn k l), forallb_app in H. apply andb_true_iff in H. apply H. Qed.
Lemma forallb_skipn {X} (p : X -> bool) k l : forallb p l = true -> forallb p (skipn k l) = true.
Proof. intros H. rewrite <- (firstn_skipn k l), forallb_app in H. apply andb_true_iff in H. apply H. Qed.
Lemma rows_plain (l : list (arg R)) t : forallb isplain (map (fun x => AX (row (aval x) t)) l) = true.
Proof. apply forallb_forall. intros v Hv. apply in_map_iff in Hv. destruct Hv as (x & <- & _). reflexivity. Qed.
Definition minv (args : list (arg R)) (c : list bool) (v : list (arg R)) : Prop := if forallb isplain args then forallb isplain v = true else mok c v.
Lemma minv_mokw args c v : minv args c v -> mokw c v.
Proof. unfold minv. destruct (forallb isplain args); [apply mokw_plain|intros H; apply H]. Qed.
Lemma minv_args nc nk ms args c v t : mok ms args -> minv args c v ->
  mokw (firstn nc ms ++ c ++ map (fun _ => true) (skipn (nc + nk) ms)) (s_cons nc args ++ v ++ map (fun x => AX (row (aval x) t)) (s_inp nc nk args)).
Proof.
  intros HM Hc. unfold minv in Hc. destruct (forallb isplain args) eqn:Hp.
  - apply mokw_plain. apply forallb_app'; [apply forallb_firstn; exact Hp|]. apply forallb_app'; [exact Hc|apply rows_plain].
  - apply mok_app; [apply mok_firstn; exact HM|]. apply mok_app; [exact Hc|]. split; [rewrite !map_length; exact (proj1 (@mok_skipn (nc + nk) _ _ HM))|]. apply mokw_plain. apply rows_plain.
Qed.
Lemma all2_len {X} (p : X -> X -> bool) l m : Interp.all2 p l m = true -> length l = length m.
Proof. revert m. induction l as [|x l IH]; intros [|y m] H; cbn in *; try discriminate; [reflexivity|]. apply andb_true_iff in H. f_equal. apply IH. apply H. Qed.
Section Scan.
Context (j : @jaxpr R prim) (nc nk : nat) (ms : list bool) (args : list (arg R)) (c r : list bool).
Context (HR : marked_run j) (HM : mok ms args) (Hr : mk_run j false (firstn nc ms ++ c ++ map (fun _ => true) (skipn (nc + nk) ms)) = Some r) (Hle : mle c (firstn nk r) = true).
Context (HL : length c = length (s_carry nc nk args)) (H0 : mokw c (s_carry nc nk args)).
Lemma minv_start : minv args c (s_carry nc nk args).
Proof. unfold minv. destruct (forallb isplain args) eqn:Hp; [|split; assumption]. unfold s_carry. apply forallb_firstn, forallb_skipn. exact Hp. Qed.
Lemma iter_marked v t v' y : minv args c v -> iterate (jeval j false) nc nk args v t = Some (v', y) -> mokw c v' /\ (forallb isplain args = true -> forallb isplain v' = true).
Proof.
  intros Hv H. unfold iterate in H. destruct (jeval j false _) as [rs|] eqn:Ej; [|discriminate]. injection H as <- <-. split.
  - pose proof (HR _ (@minv_args nc nk ms args c v t HM Hv) Hr Ej) as HO. pose proof (mok_firstn nk HO) as [_ HF]. intros i Hi. apply HF. apply (mle_nth _ _ i Hle Hi).
  - intros Hp. unfold minv in Hv. rewrite Hp in Hv. apply forallb_firstn. refine (@jrun_isplain j false _ rs _ Ej). apply forallb_app'; [apply forallb_firstn; exact Hp|]. apply forallb_app'; [exact Hv|apply rows_plain].
Qed.
Lemma siter_marked v t v' y : minv args c v -> siter (jeval j false) nc nk args v t = Some (v', y) -> minv args c v'.
Proof.
  intros Hv H. unfold siter in H. destruct (forallb isplain args) eqn:Hp.
  - destruct (@iter_marked v t v' y Hv H) as [_ K2]. unfold minv. rewrite Hp. apply K2. exact Hp.
  - unfold reiterate in H. destruct (iterate (jeval j false) nc nk args v t) as [[v1 y1]|] eqn:Ei; [|discriminate]. destruct (Interp.all2 (@same_type R) (s_carry nc nk args) v1) eqn:Et; [|discriminate]. injection H as <- <-.
    destruct (@iter_marked v t v1 y1 Hv Ei) as [K1 _]. unfold minv. rewrite Hp. split; [pose proof (all2_len _ _ _ Et) as Q; rewrite map2_length; change (length c = Nat.min (length v1) (length (s_carry nc nk args))); rewrite <- Q, Nat.min_id; exact HL|]. intros i Hi. apply set_nth_paired; [apply K1|apply H0]; exact Hi.
Qed.
Lemma loop_marked ts : forall v v' ys, minv args c v -> loop (siter (jeval j false) nc nk args) ts v = Some (v', ys) -> minv args c v'.
Proof.
  induction ts as [|t ts IH]; intros v v' ys Hv H; cbn [loop] in H; [injection H as <- <-; exact Hv|]. destruct (siter (jeval j false) nc nk args v t) as [[v1 y1]|] eqn:Es; [|discriminate]. destruct (loop _ ts v1) as [[v2 ys2]|] eqn:El; [|discriminate]. injection H as <- <-.
  apply (IH v1 v2 ys2); [|exact El]. apply (@siter_marked v t v1 y1 Hv Es).
Qed.
End Scan.
Lemma carry_marks nc nk ms args : mok ms args -> mok (firstn nk (skipn nc ms)) (s_carry nc nk args).
Proof. intros H. unfold s_carry. apply mok_firstn, mok_skipn. exact H. Qed.
Theorem mk_all k : marked k.
Proof.
  apply (@opk_all R prim marked); clear k.
  - intros key fs ms ms' args rs HM HK H. destruct (forallb isplain args) eqn:Hp; [apply (@plain_marked (KPrim key fs) ms' args rs Hp H)|]. rewrite step_if, Hp in H. cbn [mk_of] in HK. unfold eval_prim in H.
    destruct (reg key) as [rl|] eqn:Er; [apply (@prim_marked key rl ms ms' args rs HM HK Er H)|]. destruct key; cbn [prim_reg] in Er; try discriminate. cbn in HK. injection HK as <-. apply mokw_false.
  - intros fs ms ms' args rs HM HK H. cbn [mk_of] in HK. injection HK as <-. intros i Hi. exfalso. clear -Hi. revert i Hi. induction fs as [|f fs IH]; intros [|i] Hi; cbn in Hi; try discriminate. exact (IH i Hi).
  - intros name j IH ms ms' args rs HM HK H. destruct (forallb isplain args) eqn:Hp; [apply (@plain_marked (KPjit name j) ms' args rs Hp H)|]. rewrite step_if, Hp in H.
    change (mk_of (KPjit name j) ms) with (match name_prim name with Some key => mk_prim key ms | None => mk_run j true ms end) in HK. unfold name_reg in H. destruct (name_prim name) as [key|] eqn:Ek.
    + destruct (@name_regs c2r name key Ek) as (rl & E1 & E2). rewrite E2 in H. apply (@prim_marked key rl ms ms' args rs HM HK E2 H).
    + apply (@run_marked j IH true ms ms' args rs (proj2 HM) HK H).
  - intros nc nk T rv j IH ms ms' args rs HM HK H. destruct (forallb isplain args) eqn:Hp; [apply (@plain_marked (KScan nc nk T rv j) ms' args rs Hp H)|]. rewrite step_if, Hp in H.
    change (mk_of (KScan nc nk T rv j) ms) with (match mfix (fun c => mk_run j false (firstn nc ms ++ c ++ map (fun _ => true) (skipn (nc + nk) ms))) nk (S nk) (firstn nk (skipn nc ms)) with
      None => None | Some (c, r) => Some (c ++ map (fun _ => false) (skipn nk r)) end) in HK.
    destruct (mfix _ nk (S nk) _) as [[c r]|] eqn:Ef; [|discriminate]. injection HK as <-. destruct (mfix_spec _ _ _ _ Ef) as (F1 & F2 & F3 & F4). destruct (carry_marks nc nk HM) as [C1 C2]. rewrite C1 in F3.
    assert (H0 : mokw c (s_carry nc nk args)) by (intros i Hi; apply C2, F4, Hi). pose proof (@run_marked j IH) as HR. pose proof (@minv_start nc nk args c F3 H0) as HS.
    destruct (@scan_reset R CRing_R (jeval j false) nc nk T rv args rs H) as (fc & fy & d & ys & H1 & H2 & H3 & -> & H5 & H6 & H7).
    destruct (@iter_marked j nc nk ms args c r HR HM F1 F2 _ 0 fc fy HS H1) as [Kf _].
    assert (Kd : minv args c d). { apply (@loop_marked j nc nk ms args c r HR HM F1 F2 F3 H0 (order T rv) _ d ys HS). rewrite <- H3. apply loop_ext. intros v t. unfold siter. rewrite Hp. reflexivity. }
    pose proof (all2_len _ _ _ H2) as Lf. assert (Ld : length d = length c) by (unfold minv in Kd; rewrite Hp in Kd; symmetry; apply Kd).
    intros i Hi. destruct (Nat.lt_ge_cases i (length c)) as [Li|Li].
    + rewrite app_nth1 in Hi by exact Li. rewrite app_nth1 by (rewrite map2_length, Ld, <- Lf, <- F3, Nat.min_id; exact Li). apply set_nth_paired; [apply (@minv_mokw args c d Kd)|apply Kf]; exact Hi.
    + rewrite app_nth2 in Hi by exact Li. exfalso. revert Hi. generalize (i - length c). generalize (skipn nk r). clear. intros l. induction l as [|b l IH]; intros [|k] H; cbn in H; try discriminate. exact (IH k H).
Qed.
Theorem mk_run_ok j : marked_run j.
Proof. apply run_marked. intros k _. apply mk_all. Qed.
End Run.
