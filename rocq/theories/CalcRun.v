(* CalcRun.v : exactness is preserved by every program (interpreter.py:80-219): if the rule used at each executed equation is exact at the values
   it is applied to, the result of the whole program is exact.  No code is modelled here; the evaluator is Interp.v. *)
From Coq Require Import Reals Lra.
From Coquelicot Require Import Coquelicot.
From Verif Require Export Calc ScanReset.
Set Implicit Arguments.
Open Scope nat_scope.

(* a condition on the operands of every executed instruction *)
Fixpoint gexec {V} (E : @env0 V) (es : list (instr V * (list V -> Prop))) : Prop :=
  match es with
  | [] => True
  | (e, g) :: es' => match read0_many E (i_in e) with None => True | Some xs => g xs /\ match i_step e xs with None => True | Some ys => match write0_many E (i_out e) ys with None => True | Some E1 => gexec E1 es' end end end
  end.
(* a condition on every executed iteration *)
Fixpoint gloop {V} (step : list V -> nat -> option (list V * list V)) (g : list V -> nat -> Prop) (ts : list nat) (c : list V) : Prop :=
  match ts with [] => True | t :: ts' => g c t /\ match step c t with None => True | Some (c', _) => gloop step g ts' c' end end.

Section Run.
Context {K : Type} (reg : K -> option (@lrule R)) (nreg : nat -> option (@lrule R)) (c2r : bool) (th : Z).
Notation step := (step_of reg nreg c2r false th).
Notation jeval := (jrun reg nreg c2r false th).
Notation instr_at := (instr_of reg nreg c2r false th).
Notation code_at := (code_of reg nreg c2r false th).
(* conditions on equations: primitives, custom_jvp calls, calls by a registered name, scans *)
Context (G : K -> list (op R) -> list (arg R) -> Prop) (GC : list (op R) -> list (arg R) -> Prop) (GN : nat -> @jaxpr R K -> list (arg R) -> Prop).
Context (GS : @jaxpr R K -> nat -> nat -> list (arg R) -> Prop).
(* not isinstance(v, FwdLaplArray) *)
Definition isplain (v : arg R) : bool := negb (is_al v).
(* one iteration of a scan over [args]: when no argument is a forward Laplacian value the plain scan; otherwise the index tensors of the carry are restored *)
Definition siter (body : list (arg R) -> option (list (arg R))) (nc nk : nat) (args c : list (arg R)) (t : nat) : option (list (arg R) * list (arg R)) :=
  if forallb isplain args then iterate body nc nk args c t else reiterate body nc nk args c t.
(* eval_scan accepts the first iteration (interpreter.py:109-116) *)
Definition admitted (body : list (arg R) -> option (list (arg R))) (nc nk : nat) (args : list (arg R)) : Prop :=
  forallb isplain args = true \/ exists fc fy, iterate body nc nk args (s_carry nc nk args) 0 = Some (fc, fy) /\ Interp.all2 (@carry_match R) (s_carry nc nk args) fc = true.
(* specification: the side conditions hold in every iteration of a scan *)
Definition scan_good (gs : Prop) (body : list (arg R) -> option (list (arg R))) (gbody : list (arg R) -> Prop) (nc nk T : nat) (rv : bool) (args : list (arg R)) : Prop :=
  gs /\ (forall v, In v (s_inp nc nk args) -> exists s, sh (aval v) = T :: s) /\ (admitted body nc nk args ->
  (forall c ys, loop (siter body nc nk args) (order T rv) (s_carry nc nk args) = Some (c, ys) -> exists S, forall y, In y ys -> map (fun v => sh (aval v)) y = S /\ forall v, In v y -> isplain v = true) /\
  gloop (siter body nc nk args) (fun c t => gbody (s_cons nc args ++ c ++ map (fun x => AX (row (aval x) t)) (s_inp nc nk args))) (order T rv) (s_carry nc nk args)).
(* specification: the side conditions hold at every equation of a run *)
Fixpoint good (k : @opk R K) (args : list (arg R)) {struct k} : Prop :=
  match k with
  | KPrim key fs => G key fs args
  | KCustom fs => GC fs args
  | KPjit name j => match nreg name with Some _ => GN name j args | None => good_run j true args end
  | KScan nc nk T rv j => scan_good (GS j nc nk args) (jeval j false) (good_run j false) nc nk T rv args
  end
(* specification: the same for a jaxpr *)
with good_run (j : @jaxpr R K) (closed : bool) (args : list (arg R)) {struct j} : Prop :=
  match j with Jaxpr cvs ivs cs es os =>
    match init0 (Code cvs ivs [] []) (if closed then map (@AX R) cs else []) args with
    | None => True
    | Some E => gexec E (map (fun e => match e with Eqn k i o => (Instr (map (@plain_atom R) i) o (step k), good k) end) es)
    end end.
Lemma good_run_eq j closed args : good_run j closed args =
  match init0 (code_at j) (consts_of j closed) args with None => True | Some E => gexec E (map (fun e => (instr_at e, good (kind_of e))) (j_es j)) end.
Proof.
  destruct j as [cvs ivs cs es os]. cbn [good_run]. unfold consts_of, code_of, init0. cbn [j_cvs j_ivs j_cs j_es c_consts c_ins].
  destruct (write0_many _ cvs _); [|reflexivity]. destruct (write0_many _ ivs _); [|reflexivity]. f_equal. apply map_ext. intros [k i o]. reflexivity.
Qed.

Context (n : nat) (D : arg R -> Prop).
Context (HDX : forall x, D (AX x)).
(* specification: the registered rule is exact at these arguments *)
Definition rule_here (fs : list (op R)) (rl : @lrule R) (args : list (arg R)) : Prop :=
  if forallb isplain args then forall f, In f fs -> fwd_ext f (map (@aval R) args) else forall outs, rl th args = Some outs -> prim_good n fs args outs /\ Forall D outs.
(* invariant of values *)
Definition valid (args : list (arg R)) : Prop := Forall D args /\ forall v, In v args -> match v with AL a => awf n a /\ jrow1 (ljac a) | AX _ => True end.
Context (HG : forall key fs args, valid args -> G key fs args -> rule_here fs (eval_prim reg c2r key fs) args).
Context (HGC : forall fs args, valid args -> GC fs args -> rule_here fs (list_rule c2r fs) args).
Context (HGN : forall name rl j args, nreg name = Some rl -> valid args -> GN name j args -> exists fs, (forall ys, length ys = length args -> plain_run j true ys = Some (map (fun f => o_fwd f ys) fs)) /\ rule_here fs rl args).
Context (HDE : forall v u, ext_idx u v -> D v -> D (set_idx v u)).
(* J: an invariant of the carry *)
Context (HGS : forall j nc nk args, valid args -> GS j nc nk args ->
  forall fc fy, iterate (jeval j false) nc nk args (s_carry nc nk args) 0 = Some (fc, fy) -> Interp.all2 (@carry_match R) (s_carry nc nk args) fc = true ->
  exists J : list (arg R) -> Prop, J (s_carry nc nk args) /\ forall c t c' y, J c -> iterate (jeval j false) nc nk args c t = Some (c', y) -> Interp.all2 (@same_type R) (s_carry nc nk args) c' = true ->
    Forall2 (@ext_idx R) (s_carry nc nk args) c' /\ J (map2 (@set_idx R) c' (s_carry nc nk args))).

(* ---- environments ---- *)
Definition renv (E : @env0 (arg R)) (F : nat -> R -> @env0 (nd R)) : Prop := forall v a, E v = Some a ->
  exists w, (forall i, i < n -> near (fun t => F i t v = Some (w i t))) /\ track n a w /\ D a.
Lemma track_plain x : track n (AX x) (fun _ _ => x).
Proof. intros i Hi. apply near_all. intros t. split; auto. Qed.
Lemma renv_read E F l : renv E F -> forall xs, read0_many E (map (@plain_atom R) l) = Some xs ->
  exists W, (forall i, i < n -> near (fun t => read0_many (F i t) l = Some (W i t))) /\ tracks n xs W /\ Forall D xs.
Proof.
  intros HE. induction l as [|a l IH]; intros xs H; cbn [map read0_many] in H.
  - injection H as <-. exists (fun _ _ => []). split; [|split; [|constructor]]; intros i Hi; apply near_all; reflexivity.
  - destruct (read0 E (plain_atom a)) as [x|] eqn:Ea; [|discriminate]. destruct (read0_many E (map (@plain_atom R) l)) as [ys|]; [|discriminate]. injection H as <-. destruct (IH ys eq_refl) as (W & H1 & H2 & H3).
    assert (HA : exists w, (forall i, i < n -> near (fun t => read0 (F i t) a = Some (w i t))) /\ track n x w /\ D x).
    { destruct a as [v|c]; cbn [plain_atom read0] in *; [apply HE; exact Ea|]. injection Ea as <-. exists (fun _ _ => c). split; [intros i Hi; apply near_all; reflexivity|]. split; [apply track_plain|apply HDX]. }
    destruct HA as (w & A1 & A2 & A3). exists (fun i t => w i t :: W i t). split; [|split; [apply tracks_cons; auto|constructor; auto]]. intros i Hi. generalize (near_and (A1 i Hi) (H1 i Hi)). apply near_imp. intros t [B1 B2]. cbn [read0_many]. rewrite B1, B2. reflexivity.
Qed.
Lemma renv_write vs : forall E F xs W E1, renv E F -> tracks n xs W -> Forall D xs -> write0_many E vs xs = Some E1 ->
  exists F1, (forall i, i < n -> near (fun t => write0_many (F i t) vs (W i t) = Some (F1 i t))) /\ renv E1 F1.
Proof.
  induction vs as [|v vs IH]; intros E F xs W E1 HE HT HD H; destruct xs as [|x xs]; cbn [write0_many] in H; try discriminate.
  - injection H as <-. exists F. split; [|exact HE]. intros i Hi. generalize (HT i Hi). apply near_imp. intros t ->. reflexivity.
  - destruct HT as (w & V & H1 & H2 & H3). inversion HD as [|? ? D1 D2]; subst. destruct (IH (vset E v (Some x)) (fun i t => vset (F i t) v (Some (w i t))) xs V E1) as (F1 & K1 & K2); auto.
    + intros u a Hu. unfold vset in *. destruct (Nat.eqb_spec u v) as [Eu|Hne].
      * injection Hu as <-. exists w. split; [|auto]. intros i Hi. apply near_all. reflexivity.
      * apply HE. exact Hu.
    + exists F1. split; [|exact K2]. intros i Hi. generalize (near_and (H1 i Hi) (K1 i Hi)). apply near_imp. intros t [-> B]. cbn [write0_many]. exact B.
Qed.

(* replacing index tensors by equal ones *)
Lemma ext_jwf (d : nd R) m m' s : sh m = sh m' -> (forall p, inb p (sh m) -> at_ m p = at_ m' p) -> jwf n s (Jac d (Some m')) -> jwf n s (Jac d (Some m)).
Proof.
  intros Hs Ha (k & E1 & E2 & E3). exists k. cbn [jdata jidx] in *. split; [exact E1|]. split; [congruence|]. intros r p Hr Hp. rewrite Ha by (rewrite Hs, E2; constructor; auto). apply E3; auto.
Qed.
Lemma ext_jent (d : nd R) m m' s i p : sh m = sh m' -> (forall q, inb q (sh m) -> at_ m q = at_ m' q) -> jwf n s (Jac d (Some m')) -> inb p s -> jent (Jac d (Some m')) i p = jent (Jac d (Some m)) i p.
Proof.
  intros Hs Ha (k & E1 & E2 & E3) Hp. cbn [jdata jidx] in *. unfold jent. cbn [jdata jidx]. apply (@sumn_ext R). intros r Hr. rewrite Ha; [reflexivity|]. rewrite Hs, E2. constructor; [|exact Hp]. unfold rows in Hr. rewrite E1 in Hr. exact Hr.
Qed.
Lemma set_vok (v u : arg R) : ext_idx u v -> (match v with AL a => awf n a /\ jrow1 (ljac a) | AX _ => True end) -> match set_idx v u with AL a => awf n a /\ jrow1 (ljac a) | AX _ => True end.
Proof.
  destruct u as [b|y], v as [a|x]; cbn [ext_idx set_idx]; try tauto. destruct a as [x [d i] l]. cbn [ljac lx llap jdata jidx]. destruct (jidx (ljac b)) as [m|], i as [m'|]; try tauto.
  intros [Hs Ha] [[H1 H2] H3]. split; [split; [apply ext_jwf with (m' := m'); auto|exact H2]|]. intros _. apply H3. reflexivity.
Qed.
Lemma track_set (v u : arg R) w : ext_idx u v -> track n v w -> track n (set_idx v u) w.
Proof.
  intros He HT. destruct u as [b|y], v as [a|x]; cbn [ext_idx] in He; try tauto; try exact HT. destruct a as [x [d i] l]. cbn [set_idx ljac lx llap jdata jidx] in *. destruct HT as (H1 & H2 & h & H3 & H4). destruct (jidx (ljac b)) as [m|], i as [m'|]; try tauto; [|split; [exact H1|]; split; [exact H2|]; exists h; auto].
  destruct He as [Hs Ha]. destruct H1 as [H0 H1]. cbn [ljac lx llap] in *. split; [split; [apply ext_jwf with (m' := m'); auto|exact H1]|]. split; [intros _; apply H2; reflexivity|]. exists h. split; [|exact H4].
  intros i Hi. apply jets_eq with (D := jent (Jac d (Some m')) i) (H := h i); [|reflexivity|apply H3; exact Hi]. intros p Hp. apply ext_jent with (s := sh x); auto.
Qed.
Lemma tracks_set us vs : Forall2 (@ext_idx R) us vs -> forall W, tracks n vs W -> tracks n (map2 (@set_idx R) vs us) W.
Proof.
  induction 1 as [|u v us vs He H IH]; intros W HT; cbn [map2]; [exact HT|]. destruct HT as (w & V & H1 & H2 & H3). exists w, V. split; [exact H1|]. split; [apply track_set; auto|apply IH; exact H3].
Qed.
Lemma set_D us vs : Forall2 (@ext_idx R) us vs -> Forall D vs -> Forall D (map2 (@set_idx R) vs us).
Proof. induction 1 as [|u v us vs He H IH]; intros HD; cbn [map2]; [constructor|]. inversion HD; subst. constructor; [apply HDE; auto|apply IH; assumption]. Qed.
Lemma set_valid us vs : Forall2 (@ext_idx R) us vs -> valid vs -> valid (map2 (@set_idx R) vs us).
Proof.
  intros He [H1 H2]. split; [apply set_D; auto|]. clear H1. induction He as [|u v us vs Hu H IH]; intros z Hz; cbn [map2] in Hz; [destruct Hz|]. destruct Hz as [<-|Hz]; [apply set_vok; [exact Hu|apply (H2 v); left; reflexivity]|]. apply IH; [|exact Hz]. intros y Hy. apply (H2 y). right. exact Hy.
Qed.
Lemma set_vals us vs : Forall2 (@ext_idx R) us vs -> map (@aval R) (map2 (@set_idx R) vs us) = map (@aval R) vs.
Proof. induction 1 as [|u v us vs He H IH]; [reflexivity|]. cbn [map2 map]. rewrite IH. f_equal. destruct u, v; reflexivity. Qed.
Lemma same_exts (l m : list (arg R)) : Forall2 (@InterpScan.same_idx R) l m -> Forall2 (@ext_idx R) l m.
Proof. induction 1; constructor; auto. apply same_ext. assumption. Qed.
Lemma ext_join (l m : list (arg R)) : Forall2 (@ext_idx R) l m -> forall m', Forall2 (@ext_idx R) l m' -> Forall2 (@ext_idx R) m m'.
Proof. induction 1 as [|x y l m H1 H2 IH]; intros m' H'; inversion H'; subst; constructor; auto. apply ext_trans with (b := x); auto. apply ext_sym. assumption. Qed.

(* what is proved of every equation *)
Definition sound (k : @opk R K) : Prop := forall args rs W, step k args = Some rs -> Forall D args -> good k args -> tracks n args W ->
  exists P, (forall i, i < n -> near (fun t => plain_of k (W i t) = Some (P i t))) /\ tracks n rs P /\ Forall D rs.
(* the statement proved by induction over nested jaxprs *)
Definition sound_run (j : @jaxpr R K) : Prop := forall closed args rs W, jeval j closed args = Some rs -> Forall D args -> good_run j closed args -> tracks n args W ->
  exists P, (forall i, i < n -> near (fun t => plain_run j closed (W i t) = Some (P i t))) /\ tracks n rs P /\ Forall D rs.
Lemma exec_sound es : (forall e, In e es -> sound (kind_of e)) -> forall E F E1, renv E F -> exec0 E (map instr_at es) = Some E1 -> gexec E (map (fun e => (instr_at e, good (kind_of e))) es) ->
  exists F1, (forall i, i < n -> near (fun t => exec0 (F i t) (map (@pinstr_of R CRing_R K) es) = Some (F1 i t))) /\ renv E1 F1.
Proof.
  induction es as [|e es IH]; intros HS E F E1 HE HX HG'; cbn [map exec0 gexec] in *.
  - injection HX as <-. exists F. split; [|exact HE]. intros i Hi. apply near_all. reflexivity.
  - unfold exec0_1 in HX. cbn [instr_of i_in i_out i_step] in *. destruct (read0_many E (map (@plain_atom R) (ins_of e))) as [xs|] eqn:Er; [|discriminate]. destruct HG' as [G1 G2].
    destruct (step (kind_of e) xs) as [ys|] eqn:Es; [|discriminate]. destruct (write0_many E (outs_of e) ys) as [E2|] eqn:Ew; [|discriminate].
    destruct (@renv_read E F (ins_of e) HE xs Er) as (W & R1 & R2 & R3). destruct (HS e (or_introl eq_refl) xs ys W Es R3 G1 R2) as (P & P1 & P2 & P3).
    destruct (@renv_write (outs_of e) E F ys P E2 HE P2 P3 Ew) as (F2 & Q1 & Q2). destruct (IH (fun e' He => HS e' (or_intror He)) E2 F2 E1 Q2 HX G2) as (F1 & T1 & T2).
    exists F1. split; [|exact T2]. intros i Hi. generalize (near_and (near_and (R1 i Hi) (P1 i Hi)) (near_and (Q1 i Hi) (T1 i Hi))). apply near_imp. intros t [[B1 B2] [B3 B4]].
    unfold exec0_1. cbn [pinstr_of i_in i_out i_step]. rewrite B1, B2, B3. exact B4.
Qed.
Lemma run_sound j : (forall k, In k (subops j) -> sound k) -> sound_run j.
Proof.
  intros HS closed args rs W HR HD HGo HT. rewrite jrun_eq in HR. rewrite good_run_eq in HGo. unfold runb, run0 in HR. unfold init0 in HR, HGo.
  cbn [code_of c_consts c_ins c_eqns c_outs] in *. destruct (write0_many (fun _ => None) (j_cvs j) (consts_of j closed)) as [Ec|] eqn:Wc; [|discriminate].
  destruct (write0_many Ec (j_ivs j) args) as [E0|] eqn:Wi; [|discriminate]. destruct (exec0 E0 (map instr_at (j_es j))) as [E1|] eqn:X; [|discriminate].
  assert (HC : consts_of j closed = map (@AX R) (if closed then j_cs j else [])) by (unfold consts_of; destruct closed; reflexivity). rewrite HC in Wc.
  assert (H0 : renv (fun _ => None) (fun _ _ _ => None)) by (intros v a Ha; discriminate).
  assert (HTc : tracks n (map (@AX R) (if closed then j_cs j else [])) (fun _ _ => if closed then j_cs j else [])).
  { apply tracks_plain. intros i Hi. apply near_all. intros t. generalize (if closed then j_cs j else []). induction l; constructor; auto. split; auto. }
  assert (HDc : Forall D (map (@AX R) (if closed then j_cs j else []))) by (apply Forall_forall; intros v Hv; apply in_map_iff in Hv; destruct Hv as (x & <- & _); apply HDX).
  destruct (@renv_write _ _ _ _ _ _ H0 HTc HDc Wc) as (Fc & A1 & A2). destruct (@renv_write _ _ _ _ _ _ A2 HT HD Wi) as (F0 & B1 & B2).
  destruct (@exec_sound (j_es j)) with (E := E0) (F := F0) (E1 := E1) as (F1 & C1 & C2); auto.
  { intros e He. apply HS. unfold subops. apply in_map_iff. exists e. split; auto. }
  destruct (@renv_read E1 F1 (j_os j) C2 rs HR) as (P & R1 & R2 & R3). exists P. split; [|auto]. intros i Hi.
  generalize (near_and (near_and (A1 i Hi) (B1 i Hi)) (near_and (C1 i Hi) (R1 i Hi))). apply near_imp. intros t [[U1 U2] [U3 U4]].
  rewrite plain_run_eq. unfold run0, init0. cbn [pcode_of c_consts c_ins c_eqns c_outs]. rewrite U1, U2, U3. exact U4.
Qed.

(* ---- plain arguments ---- *)
Lemma tracks_valid vs W : tracks n vs W -> Forall D vs -> valid vs.
Proof.
  intros HT HD. split; [exact HD|]. intros v Hv. destruct v as [a|x]; [|exact I]. apply (In_nth _ _ (AX nd0)) in Hv. destruct Hv as (m & Hm & E). pose proof (@tracks_nth R _ _ n vs W m HT Hm) as H. rewrite E in H. destruct H as (H1 & H2 & _). auto.
Qed.
Lemma plain_map vs : forallb isplain vs = true -> vs = map (@AX R) (map (@aval R) vs).
Proof. induction vs as [|[a|x] vs IH]; cbn; intros H; [reflexivity|discriminate|]. f_equal. auto. Qed.
Lemma step_if k args : step k args = if forallb isplain args then option_map (map (@AX R)) (plain_of k (map (@aval R) args)) else
  match k with KScan nc nk T rv j => eval_scan (jeval j false) nc nk T rv args | KPjit name j => match nreg name with Some rl => rl th args | None => jeval j true args end
  | KCustom fs => list_rule c2r fs th args | KPrim key fs => eval_prim reg c2r key fs th args end.
Proof. destruct k; reflexivity. Qed.
Lemma ops_sound fs rl args rs W : (if forallb isplain args then option_map (map (@AX R)) (Some (map (fun f => o_fwd f (map (@aval R) args)) fs)) else rl th args) = Some rs ->
  rule_here fs rl args -> tracks n args W -> tracks n rs (fun i t => map (fun f => o_fwd f (W i t)) fs) /\ Forall D rs.
Proof.
  intros H HR HT. unfold rule_here in HR. destruct (forallb isplain args) eqn:Ep.
  - cbn [option_map] in H. injection H as <-. split.
    + apply tracks_plain. rewrite (plain_map _ Ep) in HT. pose proof (proj1 (tracks_plain n _ W) HT) as HT2. intros i Hi. generalize (HT2 i Hi). apply near_imp. intros t HE. clear HT HT2.
      induction fs as [|f fs IH]; cbn [map]; constructor; [apply HR; [left; reflexivity|exact HE]|]. apply IH. intros g Hg. apply HR. right. exact Hg.
    + apply Forall_forall. intros v Hv. apply in_map_iff in Hv. destruct Hv as (x & <- & _). apply HDX.
  - destruct (HR rs H) as [H1 H2]. split; [|exact H2]. apply prim_tracks with (args := args); auto.
Qed.
Lemma prim_sound key fs : sound (KPrim key fs).
Proof.
  intros args rs W H HD HGo HT. rewrite step_if in H. exists (fun i t => map (fun f => o_fwd f (W i t)) fs). split; [intros i Hi; apply near_all; reflexivity|].
  apply (@ops_sound fs (eval_prim reg c2r key fs) args rs W); auto. apply HG; auto. apply tracks_valid with (W := W); auto.
Qed.
Lemma custom_sound fs : sound (KCustom fs).
Proof.
  intros args rs W H HD HGo HT. rewrite step_if in H. exists (fun i t => map (fun f => o_fwd f (W i t)) fs). split; [intros i Hi; apply near_all; reflexivity|].
  apply (@ops_sound fs (list_rule c2r fs) args rs W); auto. apply HGC; auto. apply tracks_valid with (W := W); auto.
Qed.
Lemma pjit_plain name (j : @jaxpr R K) ys : plain_of (KPjit name j) ys = plain_run j true ys. Proof. reflexivity. Qed.
Lemma good_pjit name j args : good (KPjit name j) args = match nreg name with Some _ => GN name j args | None => good_run j true args end. Proof. reflexivity. Qed.
Lemma pjit_sound name j : (forall k, In k (subops j) -> sound k) -> sound (KPjit name j).
Proof.
  intros HS args rs W H HD HGo HT. rewrite step_if in H. rewrite good_pjit in HGo. rewrite pjit_plain in H.
  assert (HPl : forall ys, plain_of (KPjit name j) ys = plain_run j true ys) by (intros ys; apply pjit_plain).
  destruct (nreg name) as [rl|] eqn:En.
  - destruct (@HGN name rl j args En (@tracks_valid args W HT HD) HGo) as (fs & H1 & H2). exists (fun i t => map (fun f => o_fwd f (W i t)) fs). split.
    + intros i Hi. generalize (@tracks_length R _ _ n args W i HT Hi). apply near_imp. intros t E. rewrite HPl. apply H1. exact E.
    + rewrite H1 in H by apply map_length. apply (@ops_sound fs rl args rs W H H2 HT).
  - assert (H' : jeval j true args = Some rs). { destruct (forallb isplain args) eqn:Ep; [|exact H]. rewrite <- (jrun_plain reg nreg c2r th), <- (plain_map _ Ep) in H. exact H. }
    destruct (@run_sound j HS true args rs W H' HD HGo HT) as (P & P1 & P2). exists P. split; [|exact P2]. intros i Hi. generalize (P1 i Hi). apply near_imp. intros t E. rewrite HPl. exact E.
Qed.

(* ---- scan ---- *)
(* the iteration of the plain scan *)
Definition piter (j : @jaxpr R K) (nc nk : nat) (xs : list (nd R)) (c : list (nd R)) (t : nat) : option (list (nd R) * list (nd R)) :=
  match plain_run j false (firstn nc xs ++ c ++ map (fun x => row x t) (skipn (nc + nk) xs)) with None => None | Some r => Some (firstn nk r, skipn nk r) end.
Lemma row_eqa (x y : nd R) T s t : eqa x y -> sh x = T :: s -> t < T -> eqa (row x t) (row y t).
Proof.
  intros [H1 H2] Hs Ht. unfold row. split; cbn [sh at_]; [rewrite H1; reflexivity|]. intros p Hp. apply H2. rewrite Hs in *. cbn [tl] in Hp. constructor; auto.
Qed.
Lemma rows_track_gen T t l : forall V, tracks n l V -> (forall v, In v l -> isplain v = true /\ exists s, sh (aval v) = T :: s) -> t < T ->
  tracks n (map (fun x => AX (row (aval x) t)) l) (fun i u => map (fun x => row x t) (V i u)).
Proof.
  induction l as [|v l IH]; intros V HT Hv Ht; cbn [map].
  - intros i Hi. generalize (HT i Hi). apply near_imp. intros u ->. reflexivity.
  - destruct HT as (w & V' & H1 & H2 & H3). destruct (Hv v (or_introl eq_refl)) as [Pv [s Es]]. destruct v as [a|x]; [discriminate|]. cbn [aval] in *.
    exists (fun i u => row (w i u) t), (fun i u => map (fun x => row x t) (V' i u)). split; [|split].
    + intros i Hi. generalize (H1 i Hi). apply near_imp. intros u ->. reflexivity.
    + intros i Hi. generalize (H2 i Hi). apply near_imp. intros u E. apply row_eqa with (T := T) (s := s); auto.
    + apply IH; auto. intros y Hy. apply Hv. right. exact Hy.
Qed.
Lemma rows_track nc nk T args W t : tracks n args W -> (forall v, In v (s_inp nc nk args) -> isplain v = true /\ exists s, sh (aval v) = T :: s) -> t < T ->
  tracks n (map (fun x => AX (row (aval x) t)) (s_inp nc nk args)) (fun i u => map (fun x => row x t) (skipn (nc + nk) (W i u))).
Proof. intros HT Hv Ht. apply (@rows_track_gen T t (s_inp nc nk args) (fun i u => skipn (nc + nk) (W i u))); auto. apply tracks_skipn. exact HT. Qed.
Lemma forall2_firstn {X Y} (P : X -> Y -> Prop) k l m : Forall2 P l m -> Forall2 P (firstn k l) (firstn k m).
Proof. intros H. revert k. induction H; intros [|k]; cbn; constructor; auto. Qed.
Lemma Forall_firstn' {X} (P : X -> Prop) k l : Forall P l -> Forall P (firstn k l).
Proof. intros H. revert k. induction H; intros [|k]; cbn; constructor; auto. Qed.
Lemma Forall_skipn' {X} (P : X -> Prop) k l : Forall P l -> Forall P (skipn k l).
Proof. intros H. revert k. induction H; intros [|k]; cbn; auto. Qed.
(* what a step of the loop does under the invariant J of the carry *)
Definition kept (j : @jaxpr R K) (nc nk : nat) (args : list (arg R)) (J : list (arg R) -> Prop) : Prop :=
  forall c t c' y, J c -> siter (jeval j false) nc nk args c t = Some (c', y) ->
    exists r us, jeval j false (s_cons nc args ++ c ++ map (fun x => AX (row (aval x) t)) (s_inp nc nk args)) = Some r /\ y = skipn nk r /\ Forall2 (@ext_idx R) us (firstn nk r) /\ c' = map2 (@set_idx R) (firstn nk r) us /\ J c'.
Lemma exts_refl (l : list (arg R)) : Forall2 (@ext_idx R) l l.
Proof. induction l; constructor; auto. apply ext_refl. Qed.
Lemma set_self (l : list (arg R)) : map2 (@set_idx R) l l = l.
Proof. apply set_same_all. apply same_idx_refl. Qed.
Lemma admit_kept j nc nk args : valid args -> GS j nc nk args -> admitted (jeval j false) nc nk args -> exists J : list (arg R) -> Prop, J (s_carry nc nk args) /\ kept j nc nk args J.
Proof.
  intros HV HGs [Hp|(fc & fy & H1 & H2)].
  - exists (fun _ => True). split; [exact I|]. intros c t c' y _ H. unfold siter in H. rewrite Hp in H. unfold iterate in H. destruct (jeval j false _) as [r|]; [|discriminate]. injection H as <- <-. exists r, (firstn nk r). split; [reflexivity|]. split; [reflexivity|]. split; [apply exts_refl|]. split; [symmetry; apply set_self|exact I].
  - destruct (@HGS j nc nk args HV HGs fc fy H1 H2) as (J & J1 & J2). destruct (forallb isplain args) eqn:Hp.
    + exists (fun _ => True). split; [exact I|]. intros c t c' y _ H. unfold siter in H. rewrite Hp in H. unfold iterate in H. destruct (jeval j false _) as [r|]; [|discriminate]. injection H as <- <-. exists r, (firstn nk r). split; [reflexivity|]. split; [reflexivity|]. split; [apply exts_refl|]. split; [symmetry; apply set_self|exact I].
    + exists J. split; [exact J1|]. intros c t c' y HJ H. unfold siter in H. rewrite Hp in H. unfold reiterate in H. destruct (iterate (jeval j false) nc nk args c t) as [[c1 y1]|] eqn:Ei; [|discriminate].
      destruct (Interp.all2 (@same_type R) (s_carry nc nk args) c1) eqn:Et; [|discriminate]. injection H as <- <-. destruct (J2 c t c1 y1 HJ Ei Et) as [K1 K2]. unfold iterate in Ei. destruct (jeval j false _) as [r|]; [|discriminate]. injection Ei as <- <-.
      exists r, (s_carry nc nk args). auto.
Qed.
Lemma loop_sound j nc nk T args W J : sound_run j -> kept j nc nk args J -> tracks n args W -> Forall D args -> (forall v, In v (s_inp nc nk args) -> isplain v = true /\ exists s, sh (aval v) = T :: s) ->
  forall ts carry C c ys, (forall t, In t ts -> t < T) -> tracks n carry C -> Forall D carry -> J carry -> loop (siter (jeval j false) nc nk args) ts carry = Some (c, ys) ->
  (forall y v, In y ys -> In v y -> isplain v = true) ->
  gloop (siter (jeval j false) nc nk args) (fun c t => good_run j false (s_cons nc args ++ c ++ map (fun x => AX (row (aval x) t)) (s_inp nc nk args))) ts carry ->
  exists C' Y, (forall i, i < n -> near (fun t => loop (piter j nc nk (W i t)) ts (C i t) = Some (C' i t, Y i t))) /\ tracks n c C' /\ Forall D c /\
    (forall i, i < n -> near (fun t => Forall2 (Forall2 eqa) (map (map (@aval R)) ys) (Y i t))).
Proof.
  intros HS HK HT HD Hin. induction ts as [|t ts IH]; intros carry C c ys Ht HC HDc HJ HL Hp HGo; cbn [loop gloop] in *.
  - injection HL as <- <-. exists C, (fun _ _ => []). split; [intros i Hi; apply near_all; reflexivity|]. split; [exact HC|]. split; [exact HDc|]. intros i Hi. apply near_all. constructor.
  - destruct HGo as [G1 G2]. destruct (siter (jeval j false) nc nk args carry t) as [[c1 y1]|] eqn:Es; [|discriminate]. destruct (@HK carry t c1 y1 HJ Es) as (r & us & Er & Ey & Eu & Ec & HJ1). subst y1.
    destruct (loop (siter (jeval j false) nc nk args) ts c1) as [[c' ys']|] eqn:El; [|discriminate]. injection HL as <- <-.
    assert (HTb : tracks n (s_cons nc args ++ carry ++ map (fun x => AX (row (aval x) t)) (s_inp nc nk args)) (fun i u => firstn nc (W i u) ++ C i u ++ map (fun x => row x t) (skipn (nc + nk) (W i u)))).
    { apply tracks_app; [apply tracks_firstn; exact HT|]. apply tracks_app; [exact HC|]. apply rows_track with (T := T); auto. apply Ht. left. reflexivity. }
    assert (HDb : Forall D (s_cons nc args ++ carry ++ map (fun x => AX (row (aval x) t)) (s_inp nc nk args))).
    { apply Forall_app. split; [apply Forall_firstn'; exact HD|]. apply Forall_app. split; [exact HDc|]. apply Forall_forall. intros v Hv. apply in_map_iff in Hv. destruct Hv as (x & <- & _). apply HDX. }
    destruct (HS false _ r _ Er HDb G1 HTb) as (P & P1 & P2 & P3).
    destruct (IH c1 (fun i u => firstn nk (P i u)) c' ys') as (C' & Y & L1 & L2 & L3 & L4); auto.
    + intros u Hu. apply Ht. right. exact Hu.
    + subst c1. apply tracks_set; [exact Eu|]. apply tracks_firstn. exact P2.
    + subst c1. apply set_D; [exact Eu|]. apply Forall_firstn'. exact P3.
    + intros y v Hy Hv. apply (Hp y v); auto. right. exact Hy.
    + exists C', (fun i u => skipn nk (P i u) :: Y i u). split; [|split; [exact L2|split; [exact L3|]]].
      * intros i Hi. generalize (near_and (P1 i Hi) (L1 i Hi)). apply near_imp. intros u [E1 E2]. unfold piter at 1. rewrite E1, E2. reflexivity.
      * intros i Hi. cbn [map]. assert (Py : forallb isplain (skipn nk r) = true) by (apply forallb_forall; intros v Hv; apply (Hp (skipn nk r) v); auto; left; reflexivity).
        pose proof (@tracks_skipn R _ _ n nk _ _ P2) as P4. rewrite (plain_map _ Py) in P4. pose proof (proj1 (tracks_plain n _ _) P4) as P5. generalize (near_and (P5 i Hi) (L4 i Hi)). apply near_imp. intros u [E1 E2]. constructor; auto.
Qed.
Lemma stackv_eqa (xs ys : list (nd R)) : Forall2 eqa xs ys -> (forall x, In x xs -> sh x = sh (hd nd0 xs)) -> eqa (stackv xs) (stackv ys).
Proof.
  intros H Hs. assert (HN : forall k, k < length xs -> eqa (nth k xs nd0) (nth k ys nd0)).
  { clear Hs. induction H as [|x y xs ys Hxy H IH]; cbn; intros k Hk; [lia|]. destruct k; auto. apply IH. lia. }
  assert (HLen : length xs = length ys) by (clear -H; induction H; cbn; auto). unfold stackv. split; cbn [sh at_].
  - rewrite HLen. f_equal. destruct H as [|x y xs ys Hxy H]; [reflexivity|]. exact (proj1 Hxy).
  - intros p Hp. inversion Hp as [|k s q ss Hk Hq]; subst. cbn [hd tl]. apply (HN k Hk). rewrite Hs; auto. apply nth_In. exact Hk.
Qed.
Lemma col_eqa (U V : list (list (nd R))) m : Forall2 (Forall2 eqa) U V -> Forall2 eqa (col nd0 U m) (col nd0 V m).
Proof.
  induction 1 as [|x y U V H HU IH]; cbn; constructor; auto. clear -H. revert m. induction H; intros [|m]; cbn; auto; split; auto.
Qed.
Lemma stacks_eqa (U V : list (list (nd R))) (S : list shape) : Forall2 (Forall2 eqa) U V -> (forall y, In y U -> map (@sh R) y = S) -> Forall2 eqa (map (@stackv R CRing_R) (cols nd0 U)) (map (@stackv R CRing_R) (cols nd0 V)).
Proof.
  intros H HS. unfold cols. assert (HL : length (hd [] U) = length (hd [] V)).
  { destruct H as [|x y U V Hxy H]; [reflexivity|]. cbn. clear -Hxy. induction Hxy; cbn; auto. }
  rewrite <- HL. rewrite !map_map. generalize (seq 0 (length (hd [] U))). intros l. induction l as [|m l IH]; cbn [map]; constructor; auto.
  apply stackv_eqa; [apply col_eqa; exact H|]. intros x Hx. unfold col in *. apply in_map_iff in Hx. destruct Hx as (y & <- & Hy).
  assert (HSm : forall z, In z U -> sh (nth m z nd0) = nth m S (sh (@nd0 R CRing_R))) by (intros z Hz; rewrite <- (HS z Hz); rewrite map_nth; reflexivity).
  rewrite HSm by exact Hy. destruct U as [|z U]; [destruct Hy|]. cbn [map hd]. symmetry. apply HSm. left. reflexivity.
Qed.
Lemma stack_plain (l : list (nd R)) : stack_arg (map (@AX R) l) = AX (stackv l).
Proof. unfold stack_arg. replace (hd (AX nd0) (map (@AX R) l)) with (AX (hd (@nd0 R CRing_R) l)) by (destruct l; reflexivity). rewrite map_map. cbn [aval]. rewrite map_id. reflexivity. Qed.
Lemma stacks_plain (ys : list (list (arg R))) : (forall y v, In y ys -> In v y -> isplain v = true) ->
  map (@stack_arg R CRing_R) (cols (AX nd0) ys) = map (@AX R) (map (@stackv R CRing_R) (cols nd0 (map (map (@aval R)) ys))).
Proof.
  intros H. unfold cols. replace (length (hd [] (map (map (@aval R)) ys))) with (length (hd [] ys)) by (destruct ys; cbn; rewrite ?map_length; reflexivity).
  rewrite !map_map. apply map_ext. intros m. rewrite <- stack_plain. f_equal. unfold col. rewrite !map_map. apply map_ext_in. intros y Hy.
  assert (Ep : forallb isplain y = true) by (apply forallb_forall; intros v Hv; apply (H y v); auto). rewrite (plain_map _ Ep) at 1. change (AX (@nd0 R CRing_R)) with (@AX R (@nd0 R CRing_R)). apply map_nth.
Qed.
Lemma unorder_map {X Y} (f : X -> Y) rv l : map f (unorder rv l) = unorder rv (map f l).
Proof. destruct rv; cbn; auto. apply map_rev. Qed.
Lemma unorder_In {X} rv (l : list X) x : In x (unorder rv l) <-> In x l.
Proof. destruct rv; cbn; [symmetry; apply in_rev|reflexivity]. Qed.
Lemma unorder_F2 {X Y} (P : X -> Y -> Prop) rv l m : Forall2 P l m -> Forall2 P (unorder rv l) (unorder rv m).
Proof. intros H. destruct rv; cbn; auto. induction H; cbn; [constructor|]. apply Forall2_app; auto. Qed.
Lemma order_lt T rv t : In t (order T rv) -> t < T.
Proof. unfold order. destruct rv; [rewrite <- in_rev|]; rewrite in_seq; lia. Qed.
Lemma scan_plain nc nk T rv (j : @jaxpr R K) xs : plain_of (KScan nc nk T rv j) xs = if Nat.eqb T 0 then None else
  match loop (piter j nc nk xs) (order T rv) (firstn nk (skipn nc xs)) with None => None | Some (c, ys) => Some (c ++ map (@stackv R CRing_R) (cols nd0 (unorder rv ys))) end.
Proof. reflexivity. Qed.
Lemma iter_plain (j : @jaxpr R K) nc nk xs ts : forall c, loop (iterate (jeval j false) nc nk (map (@AX R) xs)) ts (map (@AX R) c) =
  match loop (piter j nc nk xs) ts c with None => None | Some (c', ys) => Some (map (@AX R) c', map (map (@AX R)) ys) end.
Proof.
  induction ts as [|t ts IH]; intros c; cbn [loop]; [reflexivity|].
  assert (E : iterate (jeval j false) nc nk (map (@AX R) xs) (map (@AX R) c) t = match piter j nc nk xs c t with None => None | Some (a, b) => Some (map (@AX R) a, map (@AX R) b) end).
  { unfold iterate, piter, s_cons, s_inp. rewrite firstn_map, skipn_map, map_map. cbn [aval]. rewrite <- (map_map (fun x => row x t) (@AX R)), <- !map_app. rewrite jrun_plain.
    destruct (plain_run j false _) as [r|]; cbn [option_map]; [|reflexivity]. rewrite firstn_map, skipn_map. reflexivity. }
  rewrite E. destruct (piter j nc nk xs c t) as [[a b]|]; [|reflexivity]. rewrite IH. destruct (loop _ ts a) as [[c' ys]|]; reflexivity.
Qed.
Lemma loop_ext {V} (f g : list V -> nat -> option (list V * list V)) : (forall c t, f c t = g c t) -> forall ts c, loop f ts c = loop g ts c.
Proof. intros H. induction ts as [|t ts IH]; intros c; cbn [loop]; [reflexivity|]. rewrite H. destruct (g c t) as [[c' y]|]; [|reflexivity]. rewrite IH. reflexivity. Qed.
Lemma scan_any nc nk T rv j args rs : step (KScan nc nk T rv j) args = Some rs ->
  exists c ys us, loop (siter (jeval j false) nc nk args) (order T rv) (s_carry nc nk args) = Some (c, ys) /\ rs = map2 (@set_idx R) c us ++ map (@stack_arg R CRing_R) (cols (AX nd0) (unorder rv ys)) /\ Forall2 (@ext_idx R) us c /\
    (forall v, In v (s_inp nc nk args) -> isplain v = true) /\ admitted (jeval j false) nc nk args /\ T <> 0.
Proof.
  intros H. rewrite step_if in H. destruct (forallb isplain args) eqn:Ep.
  - rewrite scan_plain in H. destruct (Nat.eqb_spec T 0) as [|HT]; [discriminate|].
    assert (E1 : loop (siter (jeval j false) nc nk args) (order T rv) (s_carry nc nk args) = loop (iterate (jeval j false) nc nk args) (order T rv) (s_carry nc nk args)) by (apply loop_ext; intros c t; unfold siter; rewrite Ep; reflexivity).
    rewrite E1. assert (HA : admitted (jeval j false) nc nk args) by (left; exact Ep). revert HA. rewrite (plain_map _ Ep). intros HA. set (xs := map (@aval R) args) in *.
    pose proof (@iter_plain j nc nk xs (order T rv) (firstn nk (skipn nc xs))) as HI. destruct (loop (piter j nc nk xs) _ _) as [[c ys]|]; [|discriminate]. cbn [option_map] in H. injection H as <-.
    exists (map (@AX R) c), (map (map (@AX R)) ys), (map (@AX R) c). split; [|split; [|split; [apply exts_refl|split; [|split; [exact HA|exact HT]]]]].
    + unfold s_carry. rewrite skipn_map, firstn_map. exact HI.
    + rewrite set_self, map_app. f_equal. rewrite stacks_plain.
      * f_equal. f_equal. f_equal. rewrite unorder_map. f_equal. rewrite map_map. rewrite <- (map_id ys) at 1. apply map_ext. intros y. rewrite map_map. cbn [aval]. symmetry. apply map_id.
      * intros y v Hy Hv. apply (proj1 (unorder_In rv _ y)) in Hy. apply in_map_iff in Hy. destruct Hy as (z & <- & _). apply in_map_iff in Hv. destruct Hv as (w & <- & _). reflexivity.
    + intros v Hv. unfold s_inp in Hv. rewrite skipn_map in Hv. apply in_map_iff in Hv. destruct Hv as (w & <- & _). reflexivity.
  - destruct (@scan_reset R CRing_R (jeval j false) nc nk T rv args rs H) as (fc & fy & d & ys & H1 & H2 & H3 & H4 & H5 & H6 & H7). exists d, ys, fc.
    split; [rewrite <- H3; apply loop_ext; intros c t; unfold siter; rewrite Ep; reflexivity|]. split; [exact H4|]. split; [apply ext_join with (l := s_carry nc nk args); [apply matches_ext; exact H2|apply same_exts; exact H5]|]. split; [|split; [|exact H7]].
    + intros v Hv. destruct (H6 v Hv) as [x ->]. reflexivity.
    + right. exists fc, fy. auto.
Qed.
Lemma scan_sound nc nk T rv j : (forall k, In k (subops j) -> sound k) -> sound (KScan nc nk T rv j).
Proof.
  intros HS args rs W H HD HGo HT. change (scan_good (GS j nc nk args) (jeval j false) (good_run j false) nc nk T rv args) in HGo. destruct HGo as (G1 & G2 & G34). pose proof (@tracks_valid args W HT HD) as HV.
  destruct (@scan_any nc nk T rv j args rs H) as (c & ys & us & L & -> & Hus & Hin & HA & HT0). destruct (G34 HA) as [G3 G4]. destruct (G3 c ys L) as (S & HSh). destruct (@admit_kept j nc nk args HV G1 HA) as (J & J1 & J2).
  assert (Hpl : forall y v, In y ys -> In v y -> isplain v = true) by (intros y v Hy Hv; apply (proj2 (HSh y Hy) v Hv)).
  destruct (@loop_sound j nc nk T args W J (@run_sound j HS) J2 HT HD (fun v Hv => conj (Hin v Hv) (G2 v Hv)) (order T rv) (s_carry nc nk args) (fun i t => firstn nk (skipn nc (W i t))) c ys) as (C' & Y & K1 & K2 & K3 & K4); auto.
  - intros t Ht. apply order_lt in Ht. exact Ht.
  - apply tracks_firstn. apply tracks_skipn. exact HT.
  - unfold s_carry. apply Forall_firstn'. apply Forall_skipn'. exact HD.
  - exists (fun i t => C' i t ++ map (@stackv R CRing_R) (cols nd0 (unorder rv (Y i t)))). split; [|split].
    + intros i Hi. generalize (K1 i Hi). apply near_imp. intros t E. rewrite scan_plain. destruct (Nat.eqb_spec T 0); [congruence|]. rewrite E. reflexivity.
    + apply tracks_app; [apply tracks_set; [exact Hus|exact K2]|]. rewrite stacks_plain by (intros y v Hy Hv; apply (proj1 (unorder_In rv _ y)) in Hy; apply (Hpl y v); auto). apply tracks_plain. intros i Hi. generalize (K4 i Hi). apply near_imp. intros t E.
      apply stacks_eqa with (S := S).
      * rewrite unorder_map. apply unorder_F2. exact E.
      * intros y Hy. apply in_map_iff in Hy. destruct Hy as (z & <- & Hz). apply (proj1 (unorder_In rv _ z)) in Hz. rewrite map_map. apply (HSh z Hz).
    + apply Forall_app. split; [apply set_D; [exact Hus|exact K3]|]. rewrite stacks_plain by (intros y v Hy Hv; apply (proj1 (unorder_In rv _ y)) in Hy; apply (Hpl y v); auto). apply Forall_forall. intros v Hv. apply in_map_iff in Hv. destruct Hv as (x & <- & _). apply HDX.
Qed.
Theorem opk_sound k : sound k.
Proof. apply (@opk_all R K sound); [apply prim_sound|apply custom_sound|apply pjit_sound|apply scan_sound]. Qed.
Theorem program_sound j : sound_run j.
Proof. apply run_sound. intros k _. apply opk_sound. Qed.
End Run.
