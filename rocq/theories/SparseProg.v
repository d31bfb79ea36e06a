(* SparseProg.v : programs on which forward_laplacian returns a result for every sparsity threshold. *)
From Coq Require Import Reals Lra QArith.
From Coquelicot Require Import Coquelicot.
From Verif Require Export TightCalc SparseRules.
Set Implicit Arguments.
Open Scope nat_scope.

(* ---- specification: plain evaluation of a program in which every value is marked: does it depend on the inputs (DepCalc.v)? ---- *)
Definition fval : Type := (nd R * bool)%type.
(* specification: the operands that depend on the inputs *)
Definition deps (xs : list fval) : list (nd R) := map fst (filter snd xs).
(* specification: no operand adds an axis to those that depend on the inputs.  The shape of all operands together has the same axes, axes of length one
   aside, as the shape of the dependent ones *)
Definition no_new_axes (xs : list fval) : Prop :=
  forall s t, bshapes (map (@sh R) (deps xs)) = Some s -> bshapes (map (@sh R) (map fst xs)) = Some t -> same_axes s t.
(* specification: the primitives that work with sparse Jacobians, given which operands are dependent.  Excluded are the operands on which the rules fail or
   may fail for a sparse Jacobian: more than two dependent operands (finding 3), constants that add an axis to a function with second derivatives (finding 21),
   functions of whole arrays and dot_general with two dependent operands (findings 3, 25), index operations on outputs without a dependent element (finding 17);
   scatter with two dependent operands (finding 4); and functions of complex arrays, for which see CxSparse.v *)
Definition safe_prim (k : prim) (xs : list fval) : Prop :=
  (forall f, In f (prim_ops k) -> ne (sh (o_fwd f (map fst xs)))) /\
  match k with
  | PLin _ => length (deps xs) <= 2
  | PUn _ | PMul | PSum _ | PConst _ | PSlogdet => True
  | PDiv => snd (nth 1 xs (nd0, false)) = true -> no_new_axes xs
  | PBin _ | PEw _ _ _ => length (deps xs) <= 2 /\ no_new_axes xs
  | PLinRed axes f | PRed axes f => bto (permute (keep_pos (ndim (nth 0 (map fst xs) nd0)) axes) (sh (nth 0 (map fst xs) nd0))) (sh (o_fwd f (map fst xs)))
  | PIndex g ok _ => length (deps xs) <= 2 /\ (ok = true -> forall p, inb p (i_shape g) -> snd (nth (fst (i_src g p)) xs (nd0, false)) = true)
  | PLinear _ | POther _ | PDot _ => length (deps xs) = 1
  | PScatter g ok _ _ _ => length (deps xs) = 1 /\ (ok = true -> forall p, inb p (i_shape g) -> snd (nth (fst (i_src g p)) xs (nd0, false)) = true)
  | PCplx _ | PSlogC => False
  end.
(* specification: literals do not depend on the inputs *)
Definition flit (a : atom (nd R)) : atom fval := match a with AVar v => AVar v | ALit x => ALit (x, false) end.
(* specification: one equation with marked values *)
Definition fplain (k : @opk R prim) (o : list var) (xs : list fval) : option (list fval) :=
  match plain_of k (map fst xs), (if existsb snd xs then dep_of k (map snd xs) else Some (map (fun _ => false) o)) with Some ys, Some fl => Some (combine ys fl) | _, _ => None end.
Section Safe.
Context (safe1 : prim -> list fval -> Prop).
(* specification: every equation with a dependent operand is twice differentiable at the values it meets and safe; no scan and no custom_jvp call has a dependent operand *)
Fixpoint safe_eqP (k : @opk R prim) (xs : list fval) {struct k} : Prop :=
  existsb snd xs = true ->
  match k with
  | KPrim key fs => fs = prim_ops key /\ applies key (map fst xs) /\ diff_at key (map fst xs) /\ safe1 key xs
  | KCustom _ => False        (* custom_jvp calls raise on sparse Jacobians: C58 *)
  | KPjit name j => match name_prim name with
      | Some key => (forall ys, length ys = length xs -> plain_run j true ys = Some (map (fun f => o_fwd f ys) (prim_ops key))) /\ applies key (map fst xs) /\ diff_at key (map fst xs) /\ safe1 key xs
      | None => safe_runP j true xs
      end
  | KScan _ _ _ _ _ => False
  end
(* specification: a program whose inputs are marked *)
with safe_runP (j : @jaxpr R prim) (closed : bool) (xs : list fval) {struct j} : Prop :=
  match j with Jaxpr cvs ivs cs es os =>
    match init0 (Code cvs ivs [] []) (if closed then map (fun c => (c, false)) cs else []) xs with
    | None => True
    | Some E => gexec E (map (fun e => match e with Eqn k i o => (Instr (map flit i) o (fplain k o), safe_eqP k) end) es)
    end end.
(* an equation of the specification, no /repo code *)
Definition finstr (e : @eqn R prim) : instr fval := Instr (map flit (ins_of e)) (outs_of e) (fplain (kind_of e) (outs_of e)).
Lemma safe_run_eqP j closed xs : safe_runP j closed xs =
  match init0 (Code (j_cvs j) (j_ivs j) [] []) (if closed then map (fun c => (c, false)) (j_cs j) else []) xs with None => True | Some E => gexec E (map (fun e => (finstr e, safe_eqP (kind_of e))) (j_es j)) end.
Proof.
  destruct j as [cvs ivs cs es os]. cbn [safe_runP]. unfold init0. cbn [j_cvs j_ivs j_cs j_es c_consts c_ins].
  destruct (write0_many _ cvs _); [|reflexivity]. destruct (write0_many _ ivs _); [|reflexivity]. f_equal. apply map_ext. intros [k i o]. reflexivity.
Qed.
End Safe.
(* specification: an equation is safe *)
Definition safe_eq : @opk R prim -> list fval -> Prop := safe_eqP safe_prim.
(* specification: a program whose inputs are marked is safe *)
Definition safe_run : @jaxpr R prim -> bool -> list fval -> Prop := safe_runP safe_prim.
Lemma safe_run_eq j closed xs : safe_run j closed xs =
  match init0 (Code (j_cvs j) (j_ivs j) [] []) (if closed then map (fun c => (c, false)) (j_cs j) else []) xs with None => True | Some E => gexec E (map (fun e => (finstr e, safe_eq (kind_of e))) (j_es j)) end.
Proof. exact (safe_run_eqP safe_prim j closed xs). Qed.

(* ---- the registered rules ---- *)
(* what a value of the interpreter looks like in the specification *)
Definition fv (v : arg R) : fval := (aval v, is_al v).
Notation vals := (map (@aval R)).
Lemma fv_fst (l : list (arg R)) : map fst (map fv l) = vals l. Proof. rewrite map_map. reflexivity. Qed.
Lemma fv_snd (l : list (arg R)) : map snd (map fv l) = map (@is_al R) l. Proof. rewrite map_map. reflexivity. Qed.
Lemma fv_ex (l : list (arg R)) : existsb snd (map fv l) = existsb (@is_al R) l. Proof. induction l as [|v l IH]; [reflexivity|]. cbn. rewrite IH. reflexivity. Qed.
Lemma fv_deps (l : list (arg R)) : deps (map fv l) = xs_of (als l).
Proof. unfold deps. induction l as [|[a|x] l IH]; [reflexivity| |]; cbn [map filter fv aval is_al fst snd]; rewrite ?IH; reflexivity. Qed.
Lemma fv_ndeps (l : list (arg R)) : length (deps (map fv l)) = length (als l). Proof. rewrite fv_deps. apply xs_length. Qed.
Lemma fv_axes l : no_new_axes (map fv l) -> shapes_ok l.
Proof. unfold no_new_axes, shapes_ok. rewrite fv_deps, fv_fst. auto. Qed.
Lemma fv_nth l j : snd (nth j (map fv l) (nd0, false)) = is_al (nth j l (AX nd0)).
Proof. change (@nd0 R CRing_R, false) with (fv (AX nd0)). rewrite map_nth. reflexivity. Qed.

(* scatter with one dependent operand is an index map like the others *)
Lemma parallel_scat {A} {RA : CRing A} g ok filled (mg : mergefn) ex th (la : list (lapl A)) : parallel_jvp (scatter_fn g ok filled) mg ex th SCATTER_FLAGS None la = parallel_jvp (scatter_fn g ok filled) mg ex th INDEXING None la.
Proof. reflexivity. Qed.
Lemma scat_index {A} {RA : CRing A} g ok filled c2r th (args : list (arg A)) : length (als args) = 1 -> wrap_fl (scatter_rule g ok filled) c2r th args = wrap_fl (index_rule g ok filled) c2r th args.
Proof.
  intros H1. unfold wrap_fl, scatter_rule, index_rule. fold (@scatter_fn A RA g ok filled). cbn [fn_rule r_fn r_fl r_axes r_custom r_float]. unfold jhj_trace. change (has LINEAR SCATTER_FLAGS) with true. change (has LINEAR INDEXING) with true.
  assert (EJ : forall mg ex, jvp_fn (scatter_fn g ok filled) mg ex th SCATTER_FLAGS None (als args) = jvp_fn (scatter_fn g ok filled) mg ex th INDEXING None (als args)).
  { intros mg ex. unfold jvp_fn. change (has INDEXING SCATTER_FLAGS) with true. change (has INDEXING INDEXING) with true.
    assert (EB : negb (any_weak (als args)) || all_weak (als args) && (true || axes_nil None || (length (als args) =? 1)) = true).
    { destruct (als args) as [|a [|? ?]]; try discriminate. unfold any_weak, all_weak. cbn. destruct (weak (ljac a)); reflexivity. }
    rewrite EB. apply parallel_scat. }
  rewrite EJ. reflexivity.
Qed.
Lemma scat_good {A} {RA : CRing A} n g ok filled dims ids c2r th (args : list (arg A)) : 0 < n -> als args <> [] -> length (als args) = 1 -> (forall v, In v args -> goodv n v) -> iop_wf g (map (@sh A) (map (@aval A) args)) -> ne (i_shape g) ->
  (ok = true -> forall p, inb p (i_shape g) -> is_al (nth (fst (i_src g p)) args (AX nd0)) = true) ->
  returns n (iop_op g) args (wrap_scatter g ok filled dims ids c2r th args).
Proof.
  intros Hn Hne H1 HG Hg NE HS. rewrite wrap_scatter_eq.
  - rewrite scat_index by exact H1. apply index_rule_good; auto. lia.
  - unfold mixS, all_weak, any_weak. destruct (als args) as [|a [|? ?]]; try discriminate. cbn. destruct (weak (ljac a)); auto.
Qed.

Section Prim.
Context (c2r : bool) (th : Z) (n : nat) (Hn : 0 < n).
(* usable values (specification, no /repo code) *)
Definition okl (l : list (arg R)) : Prop := forall v, In v l -> goodv n v.
Lemma one_returns (f : op R) args (o : option (arg R)) : returns n f args o -> exists rs, one o = Some rs /\ vals rs = map (fun f => o_fwd f (vals args)) [f] /\ okl rs.
Proof. intros (a & -> & G & E). exists [AL a]. split; [reflexivity|]. split; [cbn; rewrite E; reflexivity|]. intros v [<-|[]]. exact G. Qed.
Lemma one_carrier (args : list (arg R)) x : als args <> [] -> vals args = [x] -> exists a, args = [AL a] /\ lx a = x.
Proof. destruct args as [|[a|y] [|? ?]]; intros H E; try discriminate; [injection E as <-; eauto|]. exfalso. apply H. reflexivity. Qed.
Theorem prim_returns k args : okl args -> als args <> [] -> applies k (vals args) -> diff_at k (vals args) -> safe_prim k (map fv args) ->
  exists rs, eval_prim (prim_reg c2r) c2r k (prim_ops k) th args = Some rs /\ vals rs = map (fun f => o_fwd f (vals args)) (prim_ops k) /\ okl rs.
Proof.
  intros HG Hne HA HD [NE HS]. rewrite fv_fst in NE. pose proof NE as NE0. unfold eval_prim. destruct k; cbn [prim_reg prim_ops prim_op applies diff_at In] in *; rewrite ?fv_ndeps, ?fv_fst in HS; try (match goal with |- exists rs, one (wrap_fl _ _ _ _) = _ /\ _ => apply one_returns | |- exists rs, one (dot_prim _ _ _ _) = _ /\ _ => apply one_returns | |- exists rs, one (wrap_scatter _ _ _ _ _ _ _ _) = _ /\ _ => apply one_returns end); try (specialize (NE _ (or_introl eq_refl))).
  - apply ew_linear_good; auto. apply HA.
  - destruct HA as [HL HB]. rewrite map_length in HL. unfold op_un. destruct args as [|w [|? ?]]; try discriminate. refine (@ew_general_good R CRing_R n _ _ _ c2r th [w] Hn Hne HG HB _ NE _).
    + destruct w; cbn; lia.
    + apply shapes_all. destruct w; [reflexivity|exfalso; apply Hne; reflexivity].
  - destruct HA as [HL HB]. rewrite map_length in HL. destruct args as [|u [|v [|? ?]]]; try discriminate. apply (@mul_good R CRing_R n c2r th u v Hn Hne (HG u (or_introl eq_refl)) (HG v (or_intror (or_introl eq_refl))) HB NE).
  - destruct HA as [HL HB]. rewrite map_length in HL. destruct args as [|u [|v [|? ?]]]; try discriminate. apply (@div_good R CRing_R Rinv n c2r th u v Hn Hne (HG u (or_introl eq_refl)) (HG v (or_intror (or_introl eq_refl))) HB NE).
    intros Hv. apply fv_axes. apply HS. cbn. exact Hv.
  - destruct HS as [HL HX]. apply ew_general_good; auto; [apply HA|apply fv_axes; exact HX].
  - destruct HS as [HL HX]. apply ew_general_good; auto. apply fv_axes; exact HX.
  - destruct HA as (x & Ex & H1 & H2 & H3). destruct (one_carrier _ Hne Ex) as (a & -> & <-). apply sum_rule_good; auto. exact (HG _ (or_introl eq_refl)).
  - destruct HA as [(x & Ex & H1 & H2 & H3) HF]. destruct (one_carrier _ Hne Ex) as (a & -> & <-). cbn [map nth Verif.Wrap.aval] in *. apply linred_good; auto; [exact (HG _ (or_introl eq_refl))|apply HD].
  - destruct HA as [(x & Ex & H1 & H2 & H3) HF]. destruct (one_carrier _ Hne Ex) as (a & -> & <-). cbn [map nth Verif.Wrap.aval] in *. apply redn_good; auto; [exact (HG _ (or_introl eq_refl))|apply HD|apply HD].
  - destruct HS as [HL HX]. apply index_rule_good; auto. intros Ho p Hp. rewrite <- fv_nth. apply HX; auto.
  - apply linear_good; auto.
  - apply dot_good; auto.
  - exists [AX (o_fwd f (vals args))]. split; [reflexivity|]. split; [reflexivity|]. intros v [<-|[]]. exact I.
  - destruct HA as (x & L & m & Ex & Hs). destruct (one_carrier _ Hne Ex) as (a & -> & <-). unfold slogdet_wrapper.
    destruct (@slog_good R CRing_R log_absdet mat_inv n c2r a L m Hn (HG _ (or_introl eq_refl)) Hs inv_ext1) as (b & E & Gb & Eb); [apply (NE0 _ (or_intror (or_introl eq_refl)))|].
    rewrite E. cbn [bind option_map fst snd Verif.Wrap.aval]. eexists. split; [reflexivity|]. split; [cbn [map Verif.Wrap.aval]; rewrite Eb; reflexivity|]. intros v [<-|[<-|[]]]; [exact I|exact Gb].
  - destruct HS.
  - unfold missing_rule, default_rule. cbn [map sequence]. destruct (@general_fn_good R CRing_R n f c2r th args Hn Hne HS HG NE (proj1 HD)) as (a & E & Ga & Ea). rewrite E. cbn. exists [AL a]. split; [reflexivity|]. split; [cbn; rewrite Ea; reflexivity|]. intros v [<-|[]]. exact Ga.
  - destruct HS as [HL HX]. apply scat_good; auto. intros Ho p Hp. rewrite <- fv_nth. apply HX; auto.
  - destruct HS.
Qed.
End Prim.

(* ---- programs ---- *)
Section Img.
Context {V W : Type} (g : V -> W).
(* two environments agree up to g (proof device, no /repo code) *)
Definition img (E : @env0 V) (F : @env0 W) : Prop := forall v, F v = option_map g (E v).
Lemma img_read E F (X : Type) (al : X -> atom V) (bl : X -> atom W) (l : list X) : img E F -> (forall x, match al x, bl x with AVar v, AVar w => v = w | ALit a, ALit b => b = g a | _, _ => False end) ->
  read0_many F (map bl l) = option_map (map g) (read0_many E (map al l)).
Proof.
  intros HE HX. induction l as [|x l IH]; [reflexivity|]. cbn [map read0_many]. rewrite IH. assert (Ea : read0 F (bl x) = option_map g (read0 E (al x))).
  { specialize (HX x). destruct (al x), (bl x); try contradiction; cbn; [subst; apply HE|subst; reflexivity]. } rewrite Ea.
  destruct (read0 E (al x)); [|reflexivity]. cbn [option_map]. destruct (read0_many E _); reflexivity.
Qed.
Lemma img_write vs : forall E F xs, img E F -> match write0_many E vs xs, write0_many F vs (map g xs) with Some E1, Some F1 => img E1 F1 | None, None => True | _, _ => False end.
Proof.
  induction vs as [|v vs IH]; intros E F [|x xs] HE; cbn; auto. apply IH. intros w. unfold vset. destruct (Nat.eqb w v); [reflexivity|apply HE].
Qed.
End Img.
Section Prog.
Context (c2r : bool) (th : Z) (n : nat) (Hn : 0 < n).
Notation reg := (prim_reg c2r). Notation nreg := (name_reg c2r).
Notation step := (step_of reg nreg c2r false th).
Notation jeval := (jrun reg nreg c2r false th).
Notation instr_at := (instr_of reg nreg c2r false th).
Notation okl := (okl n).
Lemma comb_fv (ys : list (arg R)) : combine (vals ys) (map (@is_al R) ys) = map fv ys.
Proof. induction ys as [|y ys IH]; [reflexivity|]. cbn [map combine]. rewrite IH. reflexivity. Qed.
(* every variable holds a usable value *)
Definition oke (E : @env0 (arg R)) : Prop := forall v x, E v = Some x -> goodv n x.
Lemma oke_read E l xs : oke E -> read0_many E (map (@plain_atom R) l) = Some xs -> okl xs.
Proof.
  intros HE. revert xs. induction l as [|a l IH]; intros xs H; cbn [map read0_many] in H; [injection H as <-; intros v []|].
  destruct (read0 E (plain_atom a)) as [x|] eqn:Ea; [|discriminate]. destruct (read0_many E _) as [ys|]; [|discriminate]. injection H as <-. intros v [<-|Hv]; [|apply (IH ys eq_refl v Hv)].
  destruct a as [w|y]; cbn in Ea; [apply (HE _ _ Ea)|injection Ea as <-; exact I].
Qed.
Lemma oke_write vs : forall E xs E1, oke E -> okl xs -> write0_many E vs xs = Some E1 -> oke E1.
Proof.
  induction vs as [|v vs IH]; intros E [|x xs] E1 HE HX H; cbn in H; try discriminate; [injection H as <-; exact HE|]. refine (IH _ xs E1 _ (fun u Hu => HX u (or_intror Hu)) H).
  intros w y. unfold vset. destruct (Nat.eqb w v); [intros Hy; injection Hy as <-; apply HX; left; reflexivity|apply HE].
Qed.
(* what is proved by induction over nested programs *)
Definition sp (k : @opk R prim) : Prop := forall args ys, okl args -> safe_eq k (map fv args) -> plain_of k (vals args) = Some ys -> exists rs, step k args = Some rs /\ vals rs = ys /\ okl rs.
Lemma sp_exec es : (forall e, In e es -> sp (kind_of e)) -> forall E F P P1, oke E -> img fv E F -> img (@aval R) E P -> gexec F (map (fun e => (finstr e, safe_eq (kind_of e))) es) ->
  exec0 P (map (@pinstr_of R CRing_R prim) es) = Some P1 -> exists E1, exec0 E (map instr_at es) = Some E1 /\ oke E1 /\ img (@aval R) E1 P1.
Proof.
  induction es as [|e es IH]; intros HT E F P P1 HE HF HP HG HX; cbn [map gexec exec0] in *; [injection HX as <-; eauto|].
  unfold exec0_1 in *. cbn [instr_of pinstr_of finstr i_in i_out i_step] in *.
  assert (RF : read0_many F (map flit (ins_of e)) = option_map (map fv) (read0_many E (map (@plain_atom R) (ins_of e)))) by (apply img_read; [exact HF|intros [v|x]; reflexivity]).
  assert (RP : read0_many P (ins_of e) = option_map vals (read0_many E (map (@plain_atom R) (ins_of e)))).
  { rewrite <- (map_id (ins_of e)) at 1. apply img_read; [exact HP|intros [v|x]; reflexivity]. }
  rewrite RF in HG. rewrite RP in HX. destruct (read0_many E (map (@plain_atom R) (ins_of e))) as [xs|] eqn:Er; cbn [option_map] in *; [|discriminate].
  destruct HG as [G1 G2]. destruct (plain_of (kind_of e) (vals xs)) as [zs|] eqn:Ep; [|discriminate].
  destruct (HT e (or_introl eq_refl) xs zs (@oke_read E _ xs HE Er) G1 Ep) as (ys & Es & <- & Oy). rewrite Es.
  pose proof (@img_write _ _ (@aval R) (outs_of e) E P ys HP) as WP. destruct (write0_many P (outs_of e) (vals ys)) as [P2|]; [|discriminate]. destruct (write0_many E (outs_of e) ys) as [E2|] eqn:We; [|destruct WP].
  pose proof (@img_write _ _ fv (outs_of e) E F ys HF) as WF. rewrite We in WF. destruct (write0_many F (outs_of e) (map fv ys)) as [F2|] eqn:Wf; [|destruct WF].
  assert (EF : fplain (kind_of e) (outs_of e) (map fv xs) = Some (map fv ys)).
  { unfold fplain. rewrite fv_fst, fv_snd, fv_ex, Ep.
    assert (EFl : (if existsb (@is_al R) xs then dep_of (kind_of e) (map (@is_al R) xs) else Some (map (fun _ => false) (outs_of e))) = Some (map (@is_al R) ys)).
    { destruct (existsb (@is_al R) xs) eqn:Ex; [apply (@dep_all c2r th (kind_of e) xs ys Ex Es)|]. rewrite step_if, plain_exist, Ex in Es. cbn [negb] in Es. destruct (plain_of _ _) as [ps|]; [|discriminate]. cbn in Es. injection Es as <-. rewrite map_map. cbn [is_al]. f_equal. apply const_flags. rewrite <- (write0_len _ _ _ We), map_length. reflexivity. }
    rewrite EFl, comb_fv. reflexivity. }
  rewrite EF, Wf in G2. apply (IH (fun e' He => HT e' (or_intror He)) E2 F2 P2 P1 (@oke_write _ _ _ _ HE Oy We) WF WP G2 HX).
Qed.
Lemma sp_run j : (forall k, In k (subops j) -> sp k) -> forall closed args ys, okl args -> safe_run j closed (map fv args) -> plain_run j closed (vals args) = Some ys -> exists rs, jeval j closed args = Some rs /\ vals rs = ys /\ okl rs.
Proof.
  intros HT closed args ys Ha HS HP. rewrite jrun_eq. rewrite plain_run_eq in HP. rewrite safe_run_eq in HS. unfold runb. unfold run0 in *. unfold init0 in *. cbn [code_of pcode_of c_consts c_ins c_eqns c_outs] in *.
  assert (HC : consts_of j closed = map (@AX R) (if closed then j_cs j else [])) by (unfold consts_of; destruct closed; reflexivity). rewrite HC.
  assert (HC2 : (if closed then map (fun c : nd R => (c, false)) (j_cs j) else []) = map fv (map (@AX R) (if closed then j_cs j else []))) by (rewrite map_map; destruct closed; reflexivity). rewrite HC2 in HS.
  rewrite <- (avals_AX (if closed then j_cs j else [])) in HP. set (cs := map (@AX R) (if closed then j_cs j else [])) in *.
  assert (Ocs : okl cs) by (intros v Hv; apply in_map_iff in Hv; destruct Hv as (x & <- & _); exact I).
  change (match match @write0_many fval (fun _ => None) (j_cvs j) (map fv cs) with Some E => @write0_many fval E (j_ivs j) (map fv args) | None => None end with Some E => gexec E (map (fun e => (finstr e, safe_eq (kind_of e))) (j_es j)) | None => True end) in HS.
  pose proof (@img_write _ _ (@aval R) (j_cvs j) (fun _ => None) (fun _ => None) cs (fun _ => eq_refl)) as W1. pose proof (@img_write (arg R) fval fv (j_cvs j) (fun _ => None) (fun _ => None) cs (fun _ => eq_refl)) as V1.
  destruct (write0_many (fun _ => None) (j_cvs j) (vals cs)) as [Pc|]; [|discriminate]. destruct (write0_many (fun _ => None) (j_cvs j) cs) as [Ec|] eqn:Wc; [|destruct W1]. destruct (write0_many (fun _ => None) (j_cvs j) (map fv cs)) as [Fc|]; [|destruct V1].
  assert (O0 : oke (fun _ => None)) by (intros v x H; discriminate). pose proof (@oke_write _ _ _ _ O0 Ocs Wc) as Oc.
  pose proof (@img_write _ _ (@aval R) (j_ivs j) Ec Pc args W1) as W2. pose proof (@img_write (arg R) fval fv (j_ivs j) Ec Fc args V1) as V2.
  destruct (write0_many Pc (j_ivs j) (vals args)) as [P0|]; [|discriminate]. destruct (write0_many Ec (j_ivs j) args) as [E0|] eqn:Wi; [|destruct W2]. destruct (write0_many Fc (j_ivs j) (map fv args)) as [F0|]; [|destruct V2].
  pose proof (@oke_write _ _ _ _ Oc Ha Wi) as Oi. destruct (exec0 P0 (map (@pinstr_of R CRing_R prim) (j_es j))) as [P1|] eqn:X; [|discriminate].
  assert (HK : forall e, In e (j_es j) -> sp (kind_of e)) by (intros e He; apply HT; unfold subops; apply in_map_iff; exists e; split; auto).
  destruct (@sp_exec (j_es j) HK E0 F0 P0 P1 Oi V2 W2 HS X) as (E1 & XE & OE & IE).
  rewrite XE. assert (RP : read0_many P1 (j_os j) = option_map vals (read0_many E1 (map (@plain_atom R) (j_os j)))).
  { rewrite <- (map_id (j_os j)) at 1. apply img_read; [exact IE|intros [v|x]; reflexivity]. }
  rewrite RP in HP. destruct (read0_many E1 (map (@plain_atom R) (j_os j))) as [rs|] eqn:Er; [|discriminate]. cbn in HP. injection HP as <-. exists rs. split; [reflexivity|]. split; [reflexivity|]. apply (@oke_read E1 _ rs OE Er).
Qed.
Lemma plain_step k args ys : existsb (@is_al R) args = false -> plain_of k (vals args) = Some ys -> exists rs, step k args = Some rs /\ vals rs = ys /\ okl rs.
Proof.
  intros Ex HP. rewrite step_if, plain_exist, Ex. cbn [negb]. rewrite HP. exists (map (@AX R) ys). split; [reflexivity|]. split; [apply avals_AX|]. intros v Hv. apply in_map_iff in Hv. destruct Hv as (x & <- & _). exact I.
Qed.
Lemma sp_all k : sp k.
Proof.
  apply (@opk_all R prim sp); clear k.
  - intros key fs args ys HG HS HP. destruct (existsb (@is_al R) args) eqn:Ex; [|apply plain_step; auto]. rewrite step_if. assert (Epl : forallb isplain args = false) by (rewrite plain_exist, Ex; reflexivity). rewrite Epl.
    unfold safe_eq in HS. cbn [safe_eqP] in HS. rewrite fv_ex, fv_fst in HS. destruct (HS Ex) as (-> & H1 & H2 & H3). cbn in HP. injection HP as <-. apply (@prim_returns c2r th n Hn key args HG (plain_als _ Epl) H1 H2 H3).
  - intros fs args ys HG HS HP. destruct (existsb (@is_al R) args) eqn:Ex; [|apply plain_step; auto]. exfalso. unfold safe_eq in HS. cbn [safe_eqP] in HS. rewrite fv_ex in HS. exact (HS Ex).
  - intros name j IH args ys HG HS HP. destruct (existsb (@is_al R) args) eqn:Ex; [|apply plain_step; auto]. rewrite step_if. assert (Epl : forallb isplain args = false) by (rewrite plain_exist, Ex; reflexivity). rewrite Epl.
    change (existsb snd (map fv args) = true -> match name_prim name with
      | Some key => (forall ys, length ys = length (map fv args) -> plain_run j true ys = Some (map (fun f => o_fwd f ys) (prim_ops key))) /\ applies key (map fst (map fv args)) /\ diff_at key (map fst (map fv args)) /\ safe_prim key (map fv args)
      | None => safe_run j true (map fv args) end) in HS.
    rewrite fv_ex, fv_fst, map_length in HS. specialize (HS Ex). rewrite pjit_plain in HP. destruct (name_prim name) as [key|] eqn:Ek.
    + destruct HS as (H0 & H1 & H2 & H3). destruct (@name_regs c2r name key Ek) as (rl & E1 & E2). rewrite E1. rewrite H0 in HP by (rewrite map_length; reflexivity). injection HP as <-.
      pose proof (@prim_returns c2r th n Hn key args HG (plain_als _ Epl) H1 H2 H3) as HX. unfold eval_prim in HX. rewrite E2 in HX. exact HX.
    + assert (E1 : nreg name = None) by (unfold name_reg; rewrite Ek; reflexivity). rewrite E1. apply (@sp_run j IH true args ys HG HS HP).
  - intros nc nk T rv j IH args ys HG HS HP. destruct (existsb (@is_al R) args) eqn:Ex; [|apply plain_step; auto]. exfalso. change (existsb snd (map fv args) = true -> False) in HS. rewrite fv_ex in HS. auto.
Qed.
Theorem safe_returns j args ys : okl args -> safe_run j true (map fv args) -> plain_run j true (vals args) = Some ys -> exists rs, jeval j true args = Some rs /\ vals rs = ys /\ okl rs.
Proof. intros HG HS HP. apply (@sp_run j (fun k _ => @sp_all k) true args ys HG HS HP). Qed.
End Prog.

(* ---- forward_laplacian ---- *)
Lemma seed_good sparse ws xs k : wts_ok ws xs -> k < length xs -> ne (sh (nth k xs nd0)) -> good (total (map (@sh R) xs)) (seed sparse ws xs k).
Proof.
  intros HW Hk Hne. destruct (@seed_ok R CRing_R ws xs sparse k HW Hk) as (S1 & S2 & _ & S4 & _). split; [exact S2|]. split; [|rewrite S1; exact Hne].
  destruct sparse; [|apply dense_full; exact S4]. unfold jfull. cbn [seed ljac jidx]. cbn [expand0 sh tl]. intros p Hp. exists 0. split; [cbn; lia|]. cbn [expand0 at_ tl].
  destruct (@unravel_nth Z 0%Z (map (@sh R) xs) (map Z.of_nat (seq 0 (length (ravel xs)))) k (Nd [] (fun _ => 0%Z))) as [U1 U2]; [rewrite map_length; exact Hk|]. unfold seed_idx in *. rewrite U1 in Hp. rewrite (U2 p Hp).
  change 0%Z with (Z.of_nat 0) at 2. rewrite map_nth. lia.
Qed.
Lemma seeds_good sparse ws xs : wts_ok ws xs -> (forall x, In x xs -> ne (sh x)) -> okl (total (map (@sh R) xs)) (seeds sparse ws xs).
Proof. intros HW Hne v Hv. unfold seeds in Hv. apply in_map_iff in Hv. destruct Hv as (k & <- & Hk). apply in_seq in Hk. apply seed_good; [exact HW|lia|]. apply Hne, nth_In. lia. Qed.
Lemma seeds_fv sparse ws xs : map fv (seeds sparse ws xs) = map (fun x => (x, true)) xs.
Proof. unfold seeds. rewrite map_map. rewrite <- (map_seq_id nd0 xs) at 2. rewrite map_map. reflexivity. Qed.
Theorem forward_returns c2r t j ws xs ys : 0 < total (map (@sh R) xs) -> wts_ok ws xs -> smallj j -> (forall x, In x xs -> ne (sh x)) -> safe_run j true (map (fun x => (x, true)) xs) ->
  plain_run j true xs = Some ys -> exists rs, forward_laplacian (prim_reg c2r) (name_reg c2r) c2r t j ws (map (@AX R) xs) = Some rs /\ map (@aval R) rs = ys.
Proof.
  intros Hn HW HS Hne HR HP. unfold forward_laplacian. cbv zeta. set (th := threshold_of t (map (fun v => prod (sh (aval v))) (map (@AX R) xs))). rewrite init_plain. rewrite jrun_frees_nothing by exact HS.
  destruct (@safe_returns c2r th (total (map (@sh R) xs)) Hn j (seeds (0 <? th)%Z ws xs) ys) as (rs & E1 & E2 & _); [apply seeds_good; auto|rewrite seeds_fv; exact HR|rewrite seeds_values; exact HP|]. eauto.
Qed.
