(* Flow.v : C02 for every sparsity threshold, for programs described by data flow.  Every value gets a layout: LC constant, LD stored densely for every threshold,
   LT sparse or dense with at least as many rows as the threshold, LA anything.  slogdet, scatter and dynamic indexing are covered: their results are LD or LA,
   and only the non-linear functions of two or more dependent operands need operands of one layout.
   Nothing in this file models code of /repo: it is a condition on programs, and the proof that the interpreter is exact on them. *)
From Coq Require Import Reals Lra Classical_Prop.
From Coquelicot Require Import Coquelicot.
From Verif Require Export CxStatic.
Set Implicit Arguments.
Open Scope nat_scope.

(* ---- specification: layouts (no /repo code) ---- *)
Inductive lay := LC | LD | LT | LA.
(* values with their layouts (no /repo code: specification) *)
Definition lval : Type := (nd R * lay)%type.
(* ... *)
Definition is_lc (l : lay) : bool := match l with LC => true | _ => false end.
(* operands that may depend on the inputs (no /repo code: specification) *)
Definition ldeps {X} (xs : list (X * lay)) : list (X * lay) := filter (fun x => negb (is_lc (snd x))) xs.
(* all dependent operands are dense (no /repo code: specification) *)
Definition all_d (ls : list lay) : bool := forallb (fun l => match l with LC | LD => true | _ => false end) ls.
(* all dependent operands are sparse or have at least threshold rows (no /repo code: specification) *)
Definition all_t (ls : list lay) : bool := forallb (fun l => match l with LC | LT => true | _ => false end) ls.
(* operands that a non-linear function may combine: one dependent operand, or one layout (no /repo code: specification) *)
Definition agree {X} (xs : list (X * lay)) : Prop := length (ldeps xs) <= 1 \/ all_d (map snd xs) = true \/ all_t (map snd xs) = true.
(* functions of whole arrays: findings 20 and 23 concern scalars (no /repo code: specification) *)
Definition arrays {A} (xs : list (nd A * lay)) : Prop := length (ldeps xs) <= 1 \/ all_d (map snd xs) = true \/ forall x, In x (ldeps xs) -> ndim (fst x) <> 0.
(* gather, slice, concatenate, ... (no /repo code: specification) *)
Definition flow_index {A} (xs : list (nd A * lay)) : Prop := length (ldeps xs) <= 2 \/ all_d (map snd xs) = true \/ forall x, In x (ldeps xs) -> ndim (fst x) <> 0.
(* dot_general: transpositions are skipped wrongly for two sparse operands (C24) (no /repo code: specification) *)
Definition flow_dot {A} (D : dims) (xs : list (nd A * lay)) : Prop := match xs with
  | [x; y] => length (ldeps xs) <= 1 \/ all_d (map snd xs) = true \/ (fast_taken D (sh (fst x)) (sh (fst y)) = true -> fast_right D (sh (fst x)) (sh (fst y)))
  | _ => True end.
(* elementwise functions of three or more operands: C13 (no /repo code: specification) *)
Definition flow_ew {X} (xs : list (X * lay)) : Prop := agree xs /\ (length (ldeps xs) <= 2 \/ all_d (map snd xs) = true).
(* scatter: one dependent operand, or dense ones (C39) (no /repo code: specification) *)
Definition flow_scatter {X} (xs : list (X * lay)) : Prop := length (ldeps xs) <= 1 \/ all_d (map snd xs) = true.
(* functions of complex arrays (no /repo code: specification) *)
Definition flow_ck (c : ckern) (xs : list (nd (R * R) * lay)) : Prop :=
  match c with
  | KDiv => agree xs | KFun _ _ => flow_ew xs | KIndex _ _ _ => flow_index xs | KLinear _ => arrays xs | KOther _ => arrays xs /\ agree xs
  | KDot D => flow_dot D xs | KScatter _ _ _ _ _ => flow_scatter xs
  | _ => True
  end.
(* one equation; the modulus of a sparse complex array needs distinct indices (C21) (no /repo code: specification) *)
Definition flow_prim (k : prim) (xs : list lval) : Prop :=
  match k with
  | PDiv | PBin _ => agree xs | PEw _ _ _ => flow_ew xs | PIndex _ _ _ => flow_index xs | PLinear _ => arrays xs | POther _ => arrays xs /\ agree xs
  | PDot D => flow_dot D xs | PScatter _ _ _ _ _ => flow_scatter xs
  | PCplx (CKern c) => flow_ck c (map (fun x => (join2 (fst x), snd x)) xs)
  | PCplx CAbs => all_d (map snd xs) = true
  | _ => True
  end.
(* does the result stay LT?  Dynamic indexing and scatter give up (no /repo code: specification) *)
Definition keeps_t (k : prim) (m : nat) : bool :=
  match k with
  | PIndex _ ok filled | PCplx (CKern (KIndex _ ok filled)) => ok && (filled || Nat.eqb m 1)
  | PScatter _ _ _ _ _ | PCplx (CKern (KScatter _ _ _ _ _)) | PCplx CAbs => false
  | _ => true
  end.
(* the layout of the result of a function of operands with layouts ls (no /repo code: specification) *)
Definition lay1 (t : bool) (ls : list lay) : lay := if forallb is_lc ls then LC else if all_d ls then LD else if all_t ls && t then LT else LA.
(* the layouts of the results of a primitive; slogdet always returns a dense logarithm (no /repo code: specification) *)
Definition lay_out (k : prim) (ls : list lay) : list lay :=
  match k with
  | PConst _ => [LC]
  | PSlogdet => [LC; if forallb is_lc ls then LC else LD]
  | PSlogC => let l := if forallb is_lc ls then LC else LD in [l; l]
  | _ => [lay1 (keeps_t k (length ls)) ls]
  end.
(* literals are constants (no /repo code: specification) *)
Definition llit (a : atom (nd R)) : atom lval := match a with AVar v => AVar v | ALit x => ALit (x, LC) end.
(* the layout of the carry of a scan (no /repo code: specification) *)
Definition lay_carry (nc nk : nat) (ls : list lay) : lay := if all_d (firstn (nc + nk) ls) then LD else LT.
(* plain evaluation of an equation, with layouts (no /repo code: specification) *)
Fixpoint lplain (k : @opk R prim) (xs : list lval) {struct k} : option (list lval) :=
  match k with
  | KPrim key fs => Some (combine (map (fun f => o_fwd f (map fst xs)) fs) (lay_out key (map snd xs)))
  | KCustom fs => Some (map (fun f => (o_fwd f (map fst xs), lay1 true (map snd xs))) fs)
  | KPjit name j => match name_prim name with
      | Some key => option_map (fun ys => combine ys (lay_out key (map snd xs))) (plain_run j true (map fst xs))
      | None => lrun j true xs
      end
  | KScan nc nk T rv j => option_map (map (fun y => (y, lay_carry nc nk (map snd xs)))) (plain_of (KScan nc nk T rv j) (map fst xs))
  end
(* plain evaluation of a program, with layouts (no /repo code: specification) *)
with lrun (j : @jaxpr R prim) (closed : bool) (xs : list lval) {struct j} : option (list lval) :=
  match j with Jaxpr cvs ivs cs es os =>
    run0 (Code cvs ivs (map (fun e => match e with Eqn k i o => Instr (map llit i) o (lplain k) end) es) (map llit os)) (if closed then map (fun x => (x, LC)) cs else []) xs end.
(* a layout that is covered by m (no /repo code: specification) *)
Definition lay_le (l m : lay) : Prop := l = LC \/ l = m \/ m = LA.
(* the values of an iteration of a scan: constants and scanned inputs as they are, the carry with the layout of the carry (no /repo code: specification) *)
Definition iter_vals (nc nk : nat) (xs : list lval) (c : list (nd R)) (t : nat) : list lval :=
  firstn nc xs ++ map (fun y => (y, lay_carry nc nk (map snd xs))) c ++ map (fun x => (row (fst x) t, LC)) (skipn (nc + nk) xs).
(* every equation is twice differentiable at the values it meets, and its operands have layouts that its rule handles exactly (no /repo code: specification) *)
Fixpoint flow_eq (k : @opk R prim) (xs : list lval) {struct k} : Prop :=
  match k with
  | KPrim key fs => fs = prim_ops key /\ applies key (map fst xs) /\ (ldeps xs <> [] -> diff_at key (map fst xs) /\ flow_prim key xs)
  | KCustom fs => forall f, In f fs -> fwd_ext f (map fst xs) /\ (ldeps xs <> [] -> op_ext f (map fst xs) /\ smooth f (map fst xs))
  | KPjit name j => match name_prim name with
      | Some key => (forall ys, length ys = length xs -> plain_run j true ys = Some (map (fun f => o_fwd f ys) (prim_ops key))) /\ applies key (map fst xs) /\ (ldeps xs <> [] -> diff_at key (map fst xs) /\ flow_prim key xs)
      | None => flow_run j true xs
      end
  | KScan nc nk T rv j => shape_only_prog j /\ length (j_os j) = nk /\ (forall x, In x (skipn (nc + nk) (map fst xs)) -> exists s, sh x = T :: s) /\
      (forall l, In l (firstn (nc + nk) (map snd xs)) -> lay_le l (lay_carry nc nk (map snd xs))) /\
      gloop (piter j nc nk (map fst xs)) (fun c t => flow_run j false (iter_vals nc nk xs c t) /\ forall ys, lrun j false (iter_vals nc nk xs c t) = Some ys -> forall y, In y ys -> lay_le (snd y) (lay_carry nc nk (map snd xs)))
        (order T rv) (firstn nk (skipn nc (map fst xs)))
  end
(* ... and the same for a program (no /repo code: specification) *)
with flow_run (j : @jaxpr R prim) (closed : bool) (xs : list lval) {struct j} : Prop :=
  match j with Jaxpr cvs ivs cs es os =>
    match init0 (Code cvs ivs [] []) (if closed then map (fun x => (x, LC)) cs else []) xs with
    | None => True
    | Some E => gexec E (map (fun e => match e with Eqn k i o => (Instr (map llit i) o (lplain k), flow_eq k) end) es)
    end end.
Notation linstr := (fun e : @eqn R prim => Instr (map llit (ins_of e)) (outs_of e) (lplain (kind_of e))).
Lemma flow_run_eq j closed xs : flow_run j closed xs =
  match init0 (Code (j_cvs j) (j_ivs j) [] []) (if closed then map (fun x => (x, LC)) (j_cs j) else []) xs with None => True | Some E => gexec E (map (fun e => (linstr e, flow_eq (kind_of e))) (j_es j)) end.
Proof.
  destruct j as [cvs ivs cs es os]. cbn [flow_run j_cvs j_ivs j_cs j_es]. destruct (init0 _ _ _); [|reflexivity]. f_equal. apply map_ext. intros [k i o]. reflexivity.
Qed.
Lemma lrun_eq j closed xs : lrun j closed xs = run0 (Code (j_cvs j) (j_ivs j) (map linstr (j_es j)) (map llit (j_os j))) (if closed then map (fun x => (x, LC)) (j_cs j) else []) xs.
Proof.
  destruct j as [cvs ivs cs es os]. cbn [lrun j_cvs j_ivs j_cs j_es j_os]. f_equal. f_equal. apply map_ext. intros [k i o]. reflexivity.
Qed.

(* ---- what a layout says about an actual value ---- *)
Definition lay_ok {A} (th : Z) (l : lay) (v : arg A) : Prop := match l with LC => is_al v = false | LD => dense_arg v | LT => tight th v | LA => True end.
Lemma lay_plain {A} th l (x : nd A) : lay_ok th l (AX x). Proof. destruct l; cbn; auto. Qed.
Section Lay.
Context {A : Type} {th : Z}.
Notation oks := (Forall2 (fun (v : arg A) (l : lay) => lay_ok th l v)).
Lemma oks_len args ls : oks args ls -> length args = length ls.
Proof. induction 1; cbn; congruence. Qed.
Lemma oks_dense args ls : oks args ls -> all_d ls = true -> Forall (@dense_arg A) args.
Proof.
  induction 1 as [|v l args ls H _ IH]; intros E; [constructor|]. cbn [all_d forallb] in E. apply andb_prop in E. destruct E as [E1 E2]. constructor; [|apply IH; exact E2].
  destruct l; try discriminate; cbn [lay_ok] in H; [|exact H]. destruct v; [discriminate|exact I].
Qed.
Lemma oks_tight args ls : oks args ls -> all_t ls = true -> Forall (@tight A th) args.
Proof.
  induction 1 as [|v l args ls H _ IH]; intros E; [constructor|]. cbn [all_t forallb] in E. apply andb_prop in E. destruct E as [E1 E2]. constructor; [|apply IH; exact E2].
  destruct l; try discriminate; cbn [lay_ok] in H; [|exact H]. destruct v; [discriminate|exact I].
Qed.
Lemma oks_deps args ls : oks args ls -> length (als args) <= length (ldeps (combine (map (@aval A) args) ls)).
Proof.
  induction 1 as [|v l args ls H _ IH]; [cbn; lia|]. cbn [map combine ldeps filter snd]. destruct v as [a|x]; cbn [als flat_map app length] in *.
  - destruct l; cbn [is_lc negb length] in *; try discriminate; unfold als, ldeps in *; lia.
  - destruct l; cbn [is_lc negb length] in *; unfold als, ldeps in *; lia.
Qed.
Lemma oks_in args ls a : oks args ls -> In a (als args) -> exists l, In (lx a, l) (ldeps (combine (map (@aval A) args) ls)).
Proof.
  induction 1 as [|v l args ls H HF IH]; [intros []|]. cbn [map combine ldeps filter snd]. intros Ha. destruct v as [b|x]; cbn [als flat_map app] in Ha.
  - destruct l; cbn [is_lc negb]; cbn [lay_ok is_al] in H; try discriminate; (destruct Ha as [->|Ha]; [eexists; left; reflexivity|destruct (IH Ha) as (l' & H'); exists l'; right; exact H']).
  - destruct (IH Ha) as (l' & H'). exists l'. destruct (is_lc l); cbn [negb]; [|right]; exact H'.
Qed.
Lemma oks_lc args ls : oks args ls -> forallb is_lc ls = true -> als args = [].
Proof.
  induction 1 as [|v l args ls H _ IH]; intros E; [reflexivity|]. cbn [forallb] in E. apply andb_prop in E. destruct E as [E1 E2]. destruct l; try discriminate. destruct v as [a|x]; [discriminate|]. exact (IH E2).
Qed.
Lemma ldeps_ne args ls : oks args ls -> als args <> [] -> ldeps (combine (map (@aval A) args) ls) <> [].
Proof. intros HF Hne E. pose proof (oks_deps HF) as L. rewrite E in L. destruct (als args); [congruence|cbn in L; lia]. Qed.
Lemma snd_zip args ls : oks args ls -> map snd (combine (map (@aval A) args) ls) = ls.
Proof. induction 1 as [|v l args ls H _ IH]; [reflexivity|]. cbn. f_equal. exact IH. Qed.
Lemma fst_zip args ls : oks args ls -> map fst (combine (map (@aval A) args) ls) = map (@aval A) args.
Proof. induction 1 as [|v l args ls H _ IH]; [reflexivity|]. cbn. f_equal. exact IH. Qed.

Notation zip args ls := (combine (map (@aval A) args) ls).
Lemma agree_mix2 n args ls : oks args ls -> agree (zip args ls) -> mix2 th n (als args).
Proof.
  intros HF HA. unfold agree in HA. rewrite (snd_zip HF) in HA. destruct HA as [H|[H|H]].
  - pose proof (oks_deps HF) as L. destruct (als args) as [|a [|b l]] eqn:E; [left; reflexivity|apply mix2_one|cbn in L; lia].
  - left. apply dense_als. exact (oks_dense HF H).
  - pose proof (oks_tight HF H) as HT. right. intros a Ha W. right. apply In_als in Ha. rewrite Forall_forall in HT. specialize (HT _ Ha). cbn [tight] in HT. destruct HT as [K|K]; [congruence|exact K].
Qed.
Lemma arrays_mixF args ls : oks args ls -> als args <> [] -> arrays (zip args ls) -> mixF (als args).
Proof.
  intros HF Hne HA. unfold arrays in HA. rewrite (snd_zip HF) in HA. destruct HA as [H|[H|H]].
  - pose proof (oks_deps HF) as L. destruct (als args) as [|a [|b l]] eqn:E; [congruence|right; left; reflexivity|cbn in L; lia].
  - left. apply dense_als. exact (oks_dense HF H).
  - do 3 right. intros a Ha. left. destruct (oks_in _ HF Ha) as (l & Hl). exact (H _ Hl).
Qed.
Lemma flow_mixI args ls : oks args ls -> flow_index (zip args ls) -> mixI (als args).
Proof.
  intros HF HA. unfold flow_index in HA. rewrite (snd_zip HF) in HA. destruct HA as [H|[H|H]].
  - pose proof (oks_deps HF) as L. right. left. lia.
  - left. apply dense_als. exact (oks_dense HF H).
  - do 2 right. intros a Ha. left. destruct (oks_in _ HF Ha) as (l & Hl). exact (H _ Hl).
Qed.
Lemma flow_mix1 args ls : oks args ls -> flow_ew (zip args ls) -> mix1 (als args).
Proof.
  intros HF [_ HA]. rewrite (snd_zip HF) in HA. destruct HA as [H|H].
  - pose proof (oks_deps HF) as L. apply mix1_two. lia.
  - left. apply dense_als. exact (oks_dense HF H).
Qed.
Lemma flow_mixS args ls : oks args ls -> flow_scatter (zip args ls) -> mixS (als args).
Proof.
  intros HF HA. unfold flow_scatter in HA. rewrite (snd_zip HF) in HA. destruct HA as [H|H].
  - pose proof (oks_deps HF) as L. unfold mixS, all_weak, any_weak. destruct (als args) as [|a [|b l]] eqn:E; [right; reflexivity| |cbn in L; lia]. cbn. destruct (weak (ljac a)); [left|right]; reflexivity.
  - right. apply dense_als. exact (oks_dense HF H).
Qed.
Lemma flow_mixD D args ls : oks args ls -> flow_dot D (zip args ls) -> mixD D args.
Proof.
  intros HF HA. destruct args as [|u [|v [|? ?]]]; try exact I. inversion HF as [|? l1 ? ? K1 HF1]; subst. inversion HF1 as [|? l2 ? ? K2 HF2]; subst. inversion HF2; subst.
  cbn [map combine flow_dot fst snd] in HA. cbn [mixD]. intros HS. destruct HA as [H|[H|H]]; [| |exact H]; exfalso.
  - destruct u as [a|x]; [|discriminate]. destruct v as [b|y]; [|rewrite andb_comm in HS; discriminate]. destruct l1; [discriminate| | |]; (destruct l2; [discriminate| | |]); cbn in H; lia.
  - pose proof (oks_dense HF H) as HD. inversion HD as [|? ? D1 _]; subst. destruct u as [a|x]; [cbn in D1, HS; rewrite D1 in HS|cbn in HS]; discriminate.
Qed.
End Lay.

(* ---- primitives ---- *)
Lemma ck_tight2 c2r th n (Hn : 0 < n) c (args : list (arg (R * R))) r : (forall u, In u args -> vok n u) -> Forall (tight th) args -> als args <> [] -> ck_applies c (map (@aval (R * R)) args) -> ck_diff c (map (@aval (R * R)) args) ->
  ck_mix th n c args -> keeps_t (PCplx (CKern c)) (length args) = true -> ck_run c c2r th args = Some r -> tight th r.
Proof.
  intros HV HT Hne HA HD HM HK H. destruct (classic ((exists g ok filled, c = KIndex g ok filled) \/ exists D, c = KDot D)) as [[(g & ok & filled & ->)|(D & ->)]|HN].
  - cbn [keeps_t] in HK. apply andb_prop in HK. destruct HK as [K1 K2]. cbn [ck_run] in H. apply (@index_rule_tight _ _ n Hn c2r th g ok filled args r HV HT K1); [|exact H]. apply orb_prop in K2. destruct K2 as [K2|K2]; [left; exact K2|right; apply Nat.eqb_eq; exact K2].
  - cbn [ck_run ck_applies ck_mix] in *. destruct HA as (x & y & E & HDm). destruct args as [|u [|w [|? ?]]]; try discriminate. cbn [map] in E. injection E as E1 E2. subst x y. cbn [dot_prim] in H. destruct (dot_general c2r th D u w) as [r0|] eqn:E0; [|discriminate]. cbn in H. injection H as <-.
    assert (HR : tight th r0); [|destruct r0; exact HR]. inversion HT as [|? ? T1 HT1]; subst. inversion HT1 as [|? ? T2 _]; subst.
    apply (@dot_tight _ _ n Hn c2r th D u w r0 (HV u (or_introl eq_refl)) (HV w (or_intror (or_introl eq_refl))) T1 T2 HDm); [|exact E0]. exact HM.
  - destruct c; cbn [ck_applies ck_diff ck_run keeps_t] in *; try (exfalso; apply HN; eauto 6; fail); try discriminate.
    + destruct HA as [_ HB]. refine (@ew_tight _ _ n Hn c2r th _ _ _ _ _ _ args r HV HT HB _ H); reflexivity.
    + destruct HA as [_ HB]. refine (@ew_tight _ _ n Hn c2r th _ _ _ _ _ _ args r HV HT HB _ H); reflexivity.
    + destruct HA as [_ HB]. refine (@ew_tight _ _ n Hn c2r th _ _ _ _ _ _ args r HV HT HB _ H); reflexivity.
    + destruct HA as [[_ HB] _]. refine (@ew_tight _ _ n Hn c2r th _ _ _ _ _ _ args r HV HT HB _ H); reflexivity.
    + destruct HA as (x & Ex & H1 & H2 & H3). destruct (one_arg _ Ex Hne) as (a & -> & <-). inversion HT; subst. apply (@sum_any_tight _ _ n Hn c2r th axes a r); auto. apply HV. left. reflexivity.
    + destruct HA as [(x & Ex & H1 & H2 & H3) HF]. destruct (one_arg _ Ex Hne) as (a & -> & <-). inversion HT; subst. destruct HD as (D1 & _). apply (@red_tight _ _ n Hn c2r th f axes REDUCTION a r); auto. apply HV. left. reflexivity.
    + refine (@fn_tight _ _ n Hn c2r th f _ _ _ args r HV HT _ _ H); reflexivity.
    + refine (@fn_tight _ _ n Hn c2r th f _ _ _ args r HV HT _ _ H); reflexivity.
Qed.
Lemma slog_denseR n c2r a L m r : (0 < n)%nat -> vok n (AL a) -> sh (lx a) = L ++ [m; m] -> wrap_fl (slogdet_rule log_absdet mat_inv) c2r 0%Z [AL a] = Some (AL r) -> jidx (ljac r) = None.
Proof.
  intros Hn [Hw Hr] Hs H. unfold wrap_fl in H. cbn [als exs flat_map app map sequence canon_axes bind slogdet_rule fn_rule r_axes r_fn r_fl r_custom r_float] in H.
  destruct (jvp_fn _ _ _ _ _ _ _) as [[[y g] l]|] eqn:E; [|discriminate]. cbn [bind] in H. destruct (jhj_trace _ _ _ _ _ _ _ _ _ _) as [h|]; [|discriminate]. cbn [bind] in H.
  destruct (bin radd l h) as [l2|]; [|discriminate]. cbn [bind] in H. assert (EG : ljac r = g) by (injection H as <-; reflexivity). rewrite EG. clear H EG.
  assert (HS : step_ok n (merged (op_logdet log_absdet mat_inv) (merge_of [true]) 1 []) [a] (y, g, l) /\ jrow1 g).
  { refine (@fn_first _ _ n (op_logdet log_absdet mat_inv) 0%Z 0%Z [AL a] (y, g, l) Hn _ _ _ eq_refl E); [discriminate|intros v [<-|[]]; split; assumption|right; left; reflexivity]. }
  destruct HS as [_ Hg]. destruct (jidx g) as [mk|] eqn:Eg; [exfalso|reflexivity]. assert (Hwk : weak g = true) by (unfold weak; rewrite Eg; reflexivity). specialize (Hg Hwk).
  unfold jvp_fn, parallel_jvp, any_weak, all_weak in E. cbn [existsb forallb length f_op f_kwaxes f_iop] in E. destruct (weak (ljac a)) eqn:Ew; cbn [negb orb andb] in E.
  - change (has INDEXING 0%Z) with false in E. cbn [orb axes_nil Nat.eqb sparse_jvp] in E.
    destruct (@sparse_jvp1_sound _ _ n (merged (op_logdet log_absdet mat_inv) (merge_of [true]) 1 []) None a 0%Z 0%Z None (y, g, l) Hn Hw Hr (@struct_full _ _ _ 0%Z [lx a] 0%nat eq_refl) E) as (_ & _ & _ & _ & HT).
    specialize (HT (axes_full (lx a) (fun X => ltac:(unfold ndim in X; rewrite Hs, app_length in X; cbn in X; lia))) Hwk). cbn [fst snd] in HT. lia.
  - assert (HN : [a] <> []) by discriminate. destruct (@dense_jvp_sound _ _ n _ [a] 0%Z None (y, g, l) Hn HN (fun b Hb => match Hb with or_introl X => eq_ind a (fun c => awf n c) Hw b X | or_intror X => match X with end end) (fun X => ltac:(discriminate X)) E) as [_ S2]. cbn [fst snd] in S2. congruence.
Qed.
Section Prims.
Context (c2r : bool) (th : Z) (n : nat) (Hn : 0 < n).
Notation vals := (map (@aval R)).
Notation lo := (fun (v : arg R) (l : lay) => lay_ok th l v).
Notation zip args ls := (combine (vals args) ls).
Lemma prim_tight2 k args outs : Forall (tight th) args -> (forall u, In u args -> vok n u) -> als args <> [] -> applies k (vals args) -> diff_at k (vals args) -> mix_at th n k args -> keeps_t k (length args) = true ->
  k <> PSlogdet -> k <> PSlogC -> (forall c, k <> PCplx c) -> eval_prim (prim_reg c2r) c2r k (prim_ops k) th args = Some outs -> Forall (tight th) outs.
Proof.
  intros HT HV Hne HA HD HM HK N1 N2 N3 H. destruct (classic ((exists g ok filled, k = PIndex g ok filled) \/ exists D, k = PDot D)) as [[(g & ok & filled & ->)|(D & ->)]|HN].
  - cbn [keeps_t] in HK. apply andb_prop in HK. destruct HK as [K1 K2]. unfold eval_prim in H. cbn [prim_reg prim_op prim_ops] in H. cbv beta in H. apply one_some in H. destruct H as (r & Hr & ->). constructor; [|constructor].
    apply (@index_rule_tight _ _ n Hn c2r th g ok filled args r HV HT K1); [|exact Hr]. apply orb_prop in K2. destruct K2 as [K2|K2]; [left; exact K2|right; apply Nat.eqb_eq; exact K2].
  - unfold eval_prim in H. cbn [prim_reg prim_op prim_ops] in H. cbv beta in H. apply one_some in H. destruct H as (r & Hr & ->). constructor; [|constructor].
    cbn [applies mix_at] in *. destruct HA as (x & y & E & HDm). destruct args as [|u [|w [|? ?]]]; try discriminate. cbn [map] in E. injection E as E1 E2. subst x y. cbn [dot_prim] in Hr. destruct (dot_general c2r th D u w) as [r0|] eqn:E0; [|discriminate]. cbn in Hr. injection Hr as <-.
    assert (HR : tight th r0); [|destruct r0; exact HR]. inversion HT as [|? ? T1 HT1]; subst. inversion HT1 as [|? ? T2 _]; subst.
    apply (@dot_tight _ _ n Hn c2r th D u w r0 (HV u (or_introl eq_refl)) (HV w (or_intror (or_introl eq_refl))) T1 T2 HDm); [|exact E0]. exact HM.
  - unfold eval_prim in H. destruct k; cbn [keeps_t] in *; try (exfalso; apply HN; eauto 6; fail); try congruence; cbn [prim_reg prim_op prim_ops] in *; cbv beta in H; try (match type of H with one _ = _ => idtac end; apply one_some in H; destruct H as (r & Hr & ->); constructor; [|constructor]).
    + cbn in HA. destruct HA as [_ HB]. refine (@ew_tight _ _ n Hn c2r th _ _ _ _ _ _ args r HV HT HB _ Hr); reflexivity.
    + cbn in HA. destruct HA as [_ HB]. refine (@ew_tight _ _ n Hn c2r th _ _ _ _ _ _ args r HV HT HB _ Hr); reflexivity.
    + cbn in HA. destruct HA as [_ HB]. refine (@ew_tight _ _ n Hn c2r th _ _ _ _ _ _ args r HV HT HB _ Hr); reflexivity.
    + cbn in HA. destruct HA as [_ HB]. refine (@ew_tight _ _ n Hn c2r th _ _ _ _ _ _ args r HV HT HB _ Hr); reflexivity.
    + cbn in HA. destruct HA as [_ HB]. refine (@ew_tight _ _ n Hn c2r th _ _ _ _ _ _ args r HV HT HB _ Hr); reflexivity.
    + refine (@ew_tight _ _ n Hn c2r th _ _ _ _ _ _ args r HV HT HA _ Hr); reflexivity.
    + destruct HA as (x & Ex & H1 & H2 & H3). destruct (one_arg _ Ex Hne) as (a & -> & <-). inversion HT; subst. apply (@sum_any_tight _ _ n Hn c2r th axes a r); auto. apply HV. left. reflexivity.
    + destruct HA as [(x & Ex & H1 & H2 & H3) HF]. destruct (one_arg _ Ex Hne) as (a & -> & <-). inversion HT; subst. destruct HD as (D1 & _). apply (@red_tight _ _ n Hn c2r th f axes 15%Z a r); auto. apply HV. left. reflexivity.
    + destruct HA as [(x & Ex & H1 & H2 & H3) HF]. destruct (one_arg _ Ex Hne) as (a & -> & <-). inversion HT; subst. destruct HD as (D1 & _). apply (@red_tight _ _ n Hn c2r th f axes REDUCTION a r); auto. apply HV. left. reflexivity.
    + refine (@fn_tight _ _ n Hn c2r th f _ _ _ args r HV HT _ _ Hr); reflexivity.
    + unfold without_fl in Hr. injection Hr as <-. exact I.
    + apply (@default_tight c2r th n Hn _ _ _ HT HV H).
Qed.
Lemma oks_vok args ls : Forall2 (fun v l => lay_ok th l v /\ vok n v) args ls -> Forall2 lo args ls /\ forall v, In v args -> vok n v.
Proof.
  induction 1 as [|v l args ls [H1 H2] _ [I1 I2]]; [split; [constructor|intros v []]|]. split; [constructor; assumption|]. intros u [<-|Hu]; [exact H2|apply I2, Hu].
Qed.
Lemma dec_lay l (v : arg R) : vok n v -> iscx (aval v) -> lay_ok th l v -> lay_ok th l (dec v).
Proof. intros HV HX. destruct l; cbn [lay_ok]; [destruct v; auto|apply dense_dec|exact (@dec_tight th v n HV HX)|auto]. Qed.
Lemma dec_oks args ls : (forall v, In v args -> vok n v) -> (forall x, In x (vals args) -> iscx x) -> Forall2 lo args ls -> Forall2 (fun (v : arg (R * R)) l => lay_ok th l v) (map dec args) ls.
Proof.
  intros HV HX HF. induction HF as [|v l args ls H HF IH]; [constructor|]. cbn [map]. constructor; [apply dec_lay; [apply HV; left; reflexivity|apply HX; left; reflexivity|exact H]|].
  apply IH; [intros u Hu; apply HV; right; exact Hu|intros x Hx; apply HX; right; exact Hx].
Qed.
Lemma dec_zip (args : list (arg R)) (ls : list lay) : map (fun x => (join2 (fst x), snd x)) (zip args ls) = combine (map (@aval (R * R)) (map dec args)) ls.
Proof. revert ls. induction args as [|v args IH]; intros [|l ls]; [reflexivity..|]. cbn [map combine]. f_equal; [destruct v; reflexivity|apply IH]. Qed.
(* operands marked as complex are paired *)
Definition marked_for (k : prim) (args : list (arg R)) : Prop := exists ms ms', mok ms args /\ mk_prim k ms = Some ms'.
Lemma flow_mix k args ls : Forall2 lo args ls -> (forall v, In v args -> vok n v) -> als args <> [] -> applies k (vals args) -> marked_for k args -> flow_prim k (zip args ls) -> mix_at th n k args.
Proof.
  intros HF HV Hne HA (ms & ms' & Gm & Gk) HS. destruct k; cbn [mix_at flow_prim] in *; auto.
  - exact (@agree_mix2 R th n args ls HF HS).
  - exact (@agree_mix2 R th n args ls HF HS).
  - split; [exact (@flow_mix1 R th args ls HF HS)|exact (@agree_mix2 R th n args ls HF (proj1 HS))].
  - exact (@flow_mixI R th args ls HF HS).
  - exact (@arrays_mixF R th args ls HF Hne HS).
  - exact (@flow_mixD R th D args ls HF HS).
  - destruct c as [k|k|]; cbn [cx_mix mk_prim] in *; [|destruct k; auto; exact (proj1 (@mok_need _ _ _ _ Gm Gk))|].
    + destruct (@mok_need _ _ _ _ Gm Gk) as [HP _]. split; [exact HP|]. cbn [applies cx_applies] in HA. pose proof (dec_oks HV (proj1 HA) HF) as HC. rewrite dec_zip in HS.
      assert (Hne' : als (map dec args) <> []) by (rewrite als_dec; destruct (als args); [congruence|discriminate]).
      destruct k; cbn [ck_mix flow_ck] in *; auto.
      * exact (@agree_mix2 _ th n _ ls HC HS).
      * split; [exact (@flow_mix1 _ th _ ls HC HS)|exact (@agree_mix2 _ th n _ ls HC (proj1 HS))].
      * exact (@flow_mixI _ th _ ls HC HS).
      * exact (@arrays_mixF _ th _ ls HC Hne' HS).
      * exact (@flow_mixD _ th D _ ls HC HS).
      * split; [exact (@arrays_mixF _ th _ ls HC Hne' (proj1 HS))|exact (@agree_mix2 _ th n _ ls HC (proj2 HS))].
      * exact (@flow_mixS _ th _ ls HC HS).
    + split; [exact (proj1 (@mok_need _ _ _ _ Gm Gk))|]. rewrite (snd_zip HF) in HS. pose proof (oks_dense HF HS) as HD. apply Forall_forall. intros a Ha. left. rewrite Forall_forall in HD. apply In_als in Ha. exact (HD _ Ha).
  - split; [exact (@arrays_mixF R th args ls HF Hne (proj1 HS))|exact (@agree_mix2 R th n args ls HF (proj2 HS))].
  - exact (@flow_mixS R th args ls HF HS).
  - cbn [mk_prim] in Gk. destruct (@mok_need _ _ _ _ Gm Gk) as [HP _]. rewrite Forall_forall in HP. exact HP.
Qed.
Lemma eval_dense k args outs : Forall (@dense_arg R) args -> eval_prim (prim_reg c2r) c2r k (prim_ops k) th args = Some outs -> Forall (@dense_arg R) outs.
Proof.
  intros HD H. unfold eval_prim in H. destruct (prim_reg c2r k) as [rl|] eqn:E; [exact (@dense_prims c2r k rl E th args outs HD H)|].
  apply missing_default in H. unfold default_rule in H. clear E. revert outs H. induction (prim_ops k) as [|f fs IH]; intros outs H; cbn in H; [injection H as <-; constructor|].
  destruct (wrap_fl _ c2r th args) as [r|] eqn:Hr; [|discriminate]. destruct (sequence _) as [vs|]; [|discriminate]. cbn in H. injection H as <-. constructor; [|apply IH; reflexivity]. exact (wrap_dense _ _ _ HD Hr).
Qed.
Lemma cx_tight2 c args r : Forall (tight th) args -> (forall u, In u args -> vok n u) -> als args <> [] -> cx_applies c (vals args) -> cx_diff c (vals args) -> cx_mix th n c args -> keeps_t (PCplx c) (length args) = true ->
  cx_run c c2r th args = Some r -> tight th r.
Proof.
  intros HT HV Hne G1 G3 HM HK Hr. assert (Hne' : als (map dec args) <> []) by (rewrite als_dec; destruct (als args); [congruence|discriminate]).
  destruct c as [k|k|]; cbn [cx_mix cx_applies cx_diff cx_run] in *; [| |discriminate].
  - destruct HM as [HP HM]. destruct G1 as [X1 X2].
    assert (HC : (forall u, In u (map dec args) -> vok n u) /\ Forall (tight th) (map dec args)).
    { rewrite Forall_forall in HP, HT. split; [|apply Forall_forall]; intros u Hu; apply in_map_iff in Hu; destruct Hu as (v & <- & Hv); assert (Hi : iscx (aval v)) by (apply X1; apply in_map; exact Hv).
      - exact (@dec_vok n v (HV v Hv) Hi (HP v Hv)).
      - exact (@dec_tight th v n (HV v Hv) Hi (HT v Hv)). }
    destruct HC as [C1 C2]. destruct (ck_run k c2r th (map dec args)) as [w|] eqn:Ew; [|discriminate]. cbn [option_map] in Hr. injection Hr as <-.
    rewrite <- dec_avals in X2, G3. destruct (@ck_ok n k c2r th (map dec args) w Hn C1 Hne' X2 G3 HM Ew) as (a & -> & (A1 & A2 & _) & A3).
    apply (@enc_tight th n (AL a)); [split; assumption|]. refine (@ck_tight2 c2r th n Hn k (map dec args) (AL a) C1 C2 Hne' X2 G3 HM _ Ew). rewrite map_length. exact HK.
  - destruct G1 as (x & Ex & HX). destruct args as [|v [|? ?]]; try discriminate. cbn in Ex. injection Ex as <-. inversion HT; subst. exact (@cross_tight th n k v r (HV v (or_introl eq_refl)) H1 HX Hr).
Qed.
Lemma lay1_ok t args ls (v : arg R) : Forall2 lo args ls -> als args <> [] -> (all_d ls = true -> dense_arg v) -> (all_t ls = true -> t = true -> tight th v) -> lay_ok th (lay1 t ls) v.
Proof.
  intros HF Hne H1 H2. unfold lay1. destruct (forallb is_lc ls) eqn:E; [exfalso; apply Hne; exact (oks_lc HF E)|]. destruct (all_d ls); [exact (H1 eq_refl)|]. destruct (all_t ls), t; cbn [andb]; try exact I. exact (H2 eq_refl eq_refl).
Qed.
Lemma flow_out k args ls outs : Forall2 lo args ls -> (forall v, In v args -> vok n v) -> als args <> [] -> applies k (vals args) -> diff_at k (vals args) -> mix_at th n k args ->
  eval_prim (prim_reg c2r) c2r k (prim_ops k) th args = Some outs -> Forall2 lo outs (lay_out k ls).
Proof.
  intros HF HV Hne HA HD HM H. pose proof (oks_len HF) as HL.
  assert (NL : forallb is_lc ls = false) by (destruct (forallb is_lc ls) eqn:E; [exfalso; apply Hne; exact (oks_lc HF E)|reflexivity]).
  destruct (classic (k = PSlogdet)) as [->|N1].
  { unfold eval_prim in H. cbn [prim_reg] in H. cbv beta in H. cbn [applies] in HA. destruct HA as (x & L & m & Ex & Hs). destruct args as [|v [|? ?]]; try discriminate. cbn [map] in Ex. injection Ex as <-. destruct v as [a|y]; [|exfalso; apply Hne; reflexivity].
    unfold slogdet_wrapper in H. destruct (wrap_fl _ c2r 0%Z [AL a]) as [l|] eqn:E; [|discriminate]. cbn in H. injection H as <-. cbn [lay_out]. rewrite NL. constructor; [reflexivity|]. constructor; [|constructor]. cbn [lay_ok].
    destruct l as [b|y]; [|exact I]. cbn [dense_arg]. unfold weak. rewrite (@slog_denseR n c2r a L m b Hn (HV _ (or_introl eq_refl)) Hs E). reflexivity. }
  destruct (classic (k = PSlogC)) as [->|N2].
  { unfold eval_prim in H. cbn [prim_reg] in H. cbv beta in H. cbn [applies mix_at] in *. destruct HA as (x & L & m & Ex & Hs). destruct args as [|v [|? ?]]; try discriminate. cbn [map] in Ex. injection Ex as <-. destruct v as [a|y]; [|exfalso; apply Hne; reflexivity].
    unfold slogC_run, slogdet_complex in H. destruct (wrap_fl _ c2r 0%Z [dec (AL a)]) as [[b|y]|] eqn:E; cbn in H; try discriminate. injection H as <-. cbn [lay_out]. rewrite NL.
    assert (HX : iscx (lx a)) by (exists (L ++ [m; m]); exact Hs). pose proof (@dec_vok n (AL a) (HV _ (or_introl eq_refl)) HX (HM _ (or_introl eq_refl))) as HV'.
    assert (W : jidx (ljac b) = None) by (refine (@slog_dense n c2r (join_la a) L m b Hn HV' _ E); cbn [join_la lx]; exact (@sh_join (lx a) _ Hs)).
    constructor; [apply (@enc_dense (AL (phase_la b)))|constructor; [|constructor]]; cbn [lay_ok dense_arg phase_la ljac]; unfold weak; cbn [jidx jmap]; rewrite W; reflexivity. }
  assert (HDn : all_d ls = true -> Forall (@dense_arg R) outs) by (intros E; exact (@eval_dense k args outs (oks_dense HF E) H)).
  assert (HTn : all_t ls = true -> keeps_t k (length ls) = true -> Forall (tight th) outs).
  { intros E1 E2. rewrite <- HL in E2. pose proof (oks_tight HF E1) as HT. destruct (classic (exists c, k = PCplx c)) as [(c & ->)|N3].
    - unfold eval_prim in H. cbn [prim_reg] in H. cbv beta in H. apply one_some in H. destruct H as (r & Hr & ->). constructor; [|constructor]. exact (@cx_tight2 c args r HT HV Hne HA HD HM E2 Hr).
    - apply (@prim_tight2 k args outs HT HV Hne HA HD HM E2 N1 N2); [intros c ->; apply N3; eauto|exact H]. }
  destruct (classic (exists f, k = PConst f)) as [(f & ->)|N4].
  { unfold eval_prim in H. cbn [prim_reg] in H. cbv beta in H. apply one_some in H. destruct H as (r & Hr & ->). unfold without_fl in Hr. injection Hr as <-. constructor; [reflexivity|constructor]. }
  assert (EO : lay_out k ls = [lay1 (keeps_t k (length ls)) ls]) by (destruct k; try reflexivity; try congruence; exfalso; apply N4; eauto). rewrite EO.
  assert (Eo : length outs = 1).
  { pose proof (@prim_ok n c2r th k args outs Hn HV Hne) as PO. assert (PG : prim_good n (prim_ops k) args outs) by (apply PO; [split; [reflexivity|]; split; [exact HA|intros _; auto]|exact H]).
    unfold prim_good in PG. assert (EL : length (prim_ops k) = length outs) by (clear -PG; induction PG; cbn; congruence). rewrite <- EL. destruct k; try reflexivity; congruence. }
  destruct outs as [|o [|? ?]]; try discriminate. constructor; [|constructor]. apply (@lay1_ok _ args ls o HF Hne).
  - intros E. specialize (HDn E). inversion HDn; assumption.
  - intros E1 E2. specialize (HTn E1 E2). inversion HTn; assumption.
Qed.
Lemma flow_customs fs args ls outs : Forall2 lo args ls -> (forall v, In v args -> vok n v) -> als args <> [] -> default_rule c2r fs th args = Some outs -> Forall2 lo outs (map (fun _ => lay1 true ls) fs).
Proof.
  intros HF HV Hne. unfold default_rule. revert outs. induction fs as [|f fs IH]; intros outs H; cbn in H; [injection H as <-; constructor|].
  destruct (wrap_fl _ c2r th args) as [v|] eqn:Ev; [|discriminate]. destruct (sequence _) as [vs|]; [|discriminate]. cbn in H. injection H as <-. cbn [map]. constructor; [|apply IH; reflexivity].
  apply (@lay1_ok true args ls v HF Hne).
  - intros E. exact (wrap_dense _ _ _ (oks_dense HF E) Ev).
  - intros E _. refine (@fn_tight _ _ n Hn c2r th f _ _ _ args v HV (oks_tight HF E) _ _ Ev); reflexivity.
Qed.
End Prims.

(* ---- programs ---- *)
Section FProg.
Context (c2r : bool) (th : Z) (n : nat) (Hn : 0 < n).
Notation vals := (map (@aval R)).
Notation zip args ls := (combine (vals args) ls).
Notation okv := (Forall2 (fun (v : arg R) (l : lay) => lay_ok th l v /\ vok n v)).
Notation reg := (prim_reg c2r). Notation nreg := (name_reg c2r).
Notation step := (step_of reg nreg c2r false th).
Notation jeval := (jrun reg nreg c2r false th).
Notation instr_at := (instr_of reg nreg c2r false th).
Notation mixc := (fun _ : list (arg R) => True).
Notation gst := (fun (body : @jaxpr R prim) (_ _ : nat) (_ : list (arg R)) => shape_only_prog body).
Notation goodk := (CalcRun.good reg nreg c2r th (eq_guard (mix_at th n)) (custom_guard mixc) (name_guard (mix_at th n)) gst).
Notation goodr := (good_run reg nreg c2r th (eq_guard (mix_at th n)) (custom_guard mixc) (name_guard (mix_at th n)) gst).
Notation tt1 := (fun _ : arg R => True).
Notation lenv := (lenv n tt1).
Notation minstr := (fun e : @eqn R prim => Instr (map mlit (ins_of e)) (outs_of e) (mk_of (kind_of e))).
Definition fenv (E : @env0 (arg R)) (G : @env0 lval) : Prop := forall v, match E v with None => G v = None | Some a => exists l, G v = Some (aval a, l) /\ lay_ok th l a /\ vok n a end.
Definition flink (k : @opk R prim) : Prop := forall ms ms' args ls, mok ms args -> mk_of k ms = Some ms' -> okv args ls -> flow_eq k (zip args ls) ->
  goodk k args /\ forall rs, step k args = Some rs -> plain_of k (vals args) = Some (vals rs) /\ exists ls', lplain k (zip args ls) = Some (zip rs ls') /\ okv rs ls'.
Definition flink_run (j : @jaxpr R prim) : Prop := forall closed ms ms' args ls, mokw ms args -> mk_run j closed ms = Some ms' -> okv args ls -> flow_run j closed (zip args ls) ->
  goodr j closed args /\ forall rs, jeval j closed args = Some rs -> plain_run j closed (vals args) = Some (vals rs) /\ exists ls', lrun j closed (zip args ls) = Some (zip rs ls') /\ okv rs ls'.
Lemma okv_valid args ls : okv args ls -> valid n tt1 args.
Proof. intros H. split; [apply Forall_forall; auto|]. apply (@oks_vok th n args ls H). Qed.
Lemma okv_lo args ls : okv args ls -> Forall2 (fun v l => lay_ok th l v) args ls.
Proof. intros H. apply (@oks_vok th n args ls H). Qed.
Lemma okv_plain (xs : list (nd R)) : okv (map (@AX R) xs) (map (fun _ => LC) xs) /\ zip (map (@AX R) xs) (map (fun _ => LC) xs) = map (fun x => (x, LC)) xs.
Proof. induction xs as [|x xs [I1 I2]]; [split; [constructor|reflexivity]|]. cbn [map combine aval]. split; [constructor; [split; [reflexivity|exact I]|exact I1]|rewrite I2; reflexivity]. Qed.
Lemma fenv_read E G l : fenv E G -> forall xs, read0_many E (map (@plain_atom R) l) = Some xs -> exists ls, read0_many G (map llit l) = Some (zip xs ls) /\ okv xs ls.
Proof.
  intros HE. induction l as [|a l IH]; intros xs H; cbn [map read0_many] in *.
  - injection H as <-. exists []. split; [reflexivity|constructor].
  - destruct a as [v|x]; cbn [plain_atom llit read0] in *.
    + specialize (HE v). destruct (E v) as [a|] eqn:Ea; [|discriminate]. destruct HE as (q & E1 & E2). destruct (read0_many E _) as [ys|]; [|discriminate]. injection H as <-. destruct (IH ys eq_refl) as (ls & K1 & K2).
      exists (q :: ls). rewrite E1, K1. split; [reflexivity|constructor; assumption].
    + destruct (read0_many E _) as [ys|]; [|discriminate]. injection H as <-. destruct (IH ys eq_refl) as (ls & K1 & K2). exists (LC :: ls). rewrite K1. split; [reflexivity|constructor; [split; [reflexivity|exact I]|assumption]].
Qed.
Lemma fenv_write vs : forall E G xs ls E1, fenv E G -> okv xs ls -> write0_many E vs xs = Some E1 -> exists G1, write0_many G vs (zip xs ls) = Some G1 /\ fenv E1 G1.
Proof.
  induction vs as [|v vs IH]; intros E G xs ls E1 HE Hx H; destruct xs as [|x xs]; cbn [write0_many map] in *; try discriminate.
  - injection H as <-. inversion Hx; subst. exists G. auto.
  - inversion Hx as [|? q ? ls' Hq Hx']; subst. cbn [combine write0_many]. apply (IH (vset E v (Some x)) (vset G v (Some (aval x, q))) xs ls' E1); auto. intros u. unfold vset. destruct (Nat.eqb_spec u v) as [Eu|Eu]; [|apply HE]. exists q. split; [reflexivity|exact Hq].
Qed.
Lemma flink_exec es : (forall e, In e es -> flink (kind_of e)) -> forall M M1 E F G, menv M E -> exec0 M (map minstr es) = Some M1 -> lenv E F -> fenv E G -> gexec G (map (fun e => (linstr e, flow_eq (kind_of e))) es) ->
  gexec E (map (fun e => (instr_at e, goodk (kind_of e))) es) /\ forall E1, exec0 E (map instr_at es) = Some E1 -> exists F1 G1, exec0 F (map (@pinstr_of R CRing_R prim) es) = Some F1 /\ lenv E1 F1 /\ exec0 G (map linstr es) = Some G1 /\ fenv E1 G1.
Proof.
  induction es as [|e es IH]; intros HL M M1 E F G HM HMx HE HFE HG; cbn [map gexec exec0] in *.
  - split; [exact I|]. intros E1 [= <-]. eauto 6.
  - unfold exec0_1 at 1 in HMx. unfold exec0_1. cbn [instr_of pinstr_of i_in i_out i_step] in *. destruct (@lenv_read n tt1 (fun _ => I) E F (ins_of e) HE) as [R1 R2]. rewrite R1.
    destruct (read0_many M (map mlit (ins_of e))) as [ms|] eqn:Rm; [|discriminate]. destruct (mk_of (kind_of e) ms) as [ms'|] eqn:Km; [|discriminate]. destruct (write0_many M (outs_of e) ms') as [M2|] eqn:Wm; [|discriminate].
    destruct (read0_many E (map (@plain_atom R) (ins_of e))) as [xs|] eqn:Er; cbn [option_map] in *; [|split; [exact I|discriminate]].
    destruct (fenv_read (ins_of e) HFE Er) as (ls & Rl & Hls). rewrite Rl in HG |- *.
    pose proof (@menv_read M E (ins_of e) HM ms xs Rm Er) as Hms.
    destruct HG as [G1 G2]. destruct (HL e (or_introl eq_refl) ms ms' xs ls Hms Km Hls G1) as [L1 L2]. destruct (step (kind_of e) xs) as [ys|] eqn:Es; [|split; [split; [exact L1|exact I]|discriminate]].
    destruct (L2 ys eq_refl) as (L3 & ls' & L4 & L5). rewrite L3. rewrite L4 in G2 |- *. destruct (write0_many E (outs_of e) ys) as [E2|] eqn:Ew; [|split; [split; [exact L1|exact I]|discriminate]].
    destruct (@lenv_write n tt1 (outs_of e) E F ys E2 HE (okv_valid L5) Ew) as (F2 & W1 & W2). rewrite W1. destruct (fenv_write (outs_of e) HFE L5 Ew) as (Gn & W3 & W4). rewrite W3 in G2 |- *.
    assert (HM2 : menv M2 E2) by exact (@menv_write (outs_of e) M E ms' ys M2 E2 HM (@mk_all c2r th (kind_of e) ms ms' xs ys Hms Km Es) Wm Ew).
    destruct (IH (fun e' He => HL e' (or_intror He)) M2 M1 E2 F2 Gn HM2 HMx W2 W4 G2) as [I1 I2]. split; [split; [exact L1|exact I1]|exact I2].
Qed.
Lemma flink_runs j : (forall k, In k (subops j) -> flink k) -> flink_run j.
Proof.
  intros HL closed ms ms' args ls Hms Hmr Ha HS. rewrite good_run_eq, jrun_eq, plain_run_eq, lrun_eq. rewrite flow_run_eq in HS. rewrite mk_run_eq in Hmr. unfold runb, run0 in *. unfold init0 in *. cbn [code_of pcode_of c_consts c_ins c_eqns c_outs] in *.
  assert (HC : consts_of j closed = map (@AX R) (if closed then j_cs j else [])) by (unfold consts_of; destruct closed; reflexivity). rewrite HC.
  assert (HC2 : (if closed then map (fun x => (x, LC)) (j_cs j) else []) = map (fun x => (x, LC)) (if closed then j_cs j else [])) by (destruct closed; reflexivity). unfold lval in *. rewrite HC2 in HS |- *.
  set (cs := if closed then j_cs j else []) in *. destruct (okv_plain cs) as [O1 O2].
  destruct (write0_many (fun _ => None) (j_cvs j) (if closed then map (fun _ => true) (j_cs j) else [])) as [M0|] eqn:A1m; [|discriminate]. destruct (write0_many M0 (j_ivs j) ms) as [M1|] eqn:A2m; [|discriminate]. destruct (exec0 M1 _) as [M2|] eqn:A3m; [|discriminate].
  destruct (write0_many (fun _ => None) (j_cvs j) (map (@AX R) cs)) as [Ec|] eqn:Wc; [|split; [exact I|discriminate]].
  assert (H0 : lenv (fun _ => None) (fun _ => None)) by (intros v; split; [reflexivity|discriminate]). assert (H0' : fenv (fun _ => None) (fun _ => None)) by (intros v; reflexivity).
  assert (K0 : menv M0 Ec) by (refine (@menv_write _ _ _ _ _ _ _ _ (mokw_AX _ cs) A1m Wc); intros v a H; discriminate).
  destruct (@lenv_write n tt1 _ _ _ _ _ H0 (okv_valid O1) Wc) as (Fc & A1 & A2). rewrite avals_AX in A1. rewrite A1. destruct (fenv_write _ H0' O1 Wc) as (Gc & A3 & A4). rewrite O2 in A3. unfold lval in *. rewrite A3 in HS |- *.
  destruct (write0_many Ec (j_ivs j) args) as [E0|] eqn:Wi; [|split; [exact I|discriminate]]. destruct (@lenv_write n tt1 _ _ _ _ _ A2 (okv_valid Ha) Wi) as (F0 & B1 & B2). rewrite B1. destruct (fenv_write _ A4 Ha Wi) as (G0 & B3 & B4). unfold lval in *. rewrite B3 in HS |- *.
  assert (K1 : menv M1 E0) by exact (@menv_write _ _ _ _ _ _ _ K0 Hms A2m Wi).
  destruct (@flink_exec (j_es j)) with (M := M1) (M1 := M2) (E := E0) (F := F0) (G := G0) as [C1 C2]; auto.
  { intros e He. apply HL. unfold subops. apply in_map_iff. exists e. split; auto. }
  split; [exact C1|]. intros rs HR. destruct (exec0 E0 (map instr_at (j_es j))) as [E1|] eqn:X; [|discriminate]. destruct (C2 E1 eq_refl) as (F1 & G1 & D1 & D2 & D3 & D4). unfold lval in *. rewrite D1, D3.
  destruct (@lenv_read n tt1 (fun _ => I) E1 F1 (j_os j) D2) as [R1 R2]. rewrite HR in R1. split; [exact R1|]. exact (fenv_read (j_os j) D4 HR).
Qed.
Lemma lay_ext l (v u : arg R) : ext_idx u v -> lay_ok th l v -> lay_ok th l (set_idx v u).
Proof.
  destruct l; cbn [lay_ok]; [| |apply (@tight_ext th)|auto].
  - destruct u, v; cbn; auto.
  - destruct u as [b|y], v as [a|x]; cbn; auto. unfold weak. cbn. intros He H. destruct (jidx (ljac a)); [discriminate|]. destruct (jidx (ljac b)); [destruct He|reflexivity].
Qed.
Lemma lay_mono l m (v : arg R) : lay_le l m -> lay_ok th l v -> lay_ok th m v.
Proof. intros [-> |[-> | ->]] H; [|exact H|exact I]. destruct v; [discriminate|apply lay_plain]. Qed.
Lemma ops_flow fs rl args ls kls : okv args ls -> (forall outs, forallb isplain args = false -> rl th args = Some outs -> prim_good n fs args outs /\ Forall2 (fun v l => lay_ok th l v) outs kls) -> length kls = length fs ->
  forall rs, (if forallb isplain args then option_map (map (@AX R)) (Some (map (fun f => o_fwd f (vals args)) fs)) else rl th args) = Some rs ->
  Some (map (fun f => o_fwd f (vals args)) fs) = Some (vals rs) /\ okv rs kls.
Proof.
  intros Ha HR HL rs H. destruct (forallb isplain args) eqn:Ep.
  - cbn [option_map] in H. injection H as <-. split; [rewrite avals_AX; reflexivity|]. assert (HL' : length (map (@AX R) (map (fun f => o_fwd f (vals args)) fs)) = length kls) by (rewrite !map_length; congruence). clear -HL'. revert kls HL'.
    induction (map (fun f => o_fwd f (vals args)) fs) as [|x l IH]; intros [|k kls] HL; cbn in HL; try discriminate; constructor; [split; [apply lay_plain|exact I]|apply IH; lia].
  - destruct (HR rs eq_refl H) as [H1 H2]. destruct (@good_vals n fs args rs H1) as [V1 V2]. split; [f_equal; exact V1|]. clear -H2 V2. induction H2 as [|v l vs ls H H2 IH]; constructor; [split; [exact H|apply V2; left; reflexivity]|apply IH; intros u Hu; apply V2; right; exact Hu].
Qed.
Lemma out_len k ls : length (lay_out k ls) = length (prim_ops k). Proof. destruct k; reflexivity. Qed.
Lemma prim_case key args ls ms ms' : okv args ls -> mok ms args -> mk_prim key ms = Some ms' -> applies key (vals args) -> (ldeps (zip args ls) <> [] -> diff_at key (vals args) /\ flow_prim key (zip args ls)) ->
  eq_guard (mix_at th n) key (prim_ops key) args /\ forall outs, forallb isplain args = false -> eval_prim reg c2r key (prim_ops key) th args = Some outs -> prim_good n (prim_ops key) args outs /\ Forall2 (fun v l => lay_ok th l v) outs (lay_out key ls).
Proof.
  intros Ha Hms Hmk HA HX. destruct (@oks_vok th n args ls Ha) as [HF HV].
  assert (HG : eq_guard (mix_at th n) key (prim_ops key) args).
  { split; [reflexivity|]. split; [exact HA|]. intros Hne. destruct (HX (ldeps_ne HF Hne)) as [H1 H2]. split; [exact H1|]. apply (@flow_mix th n key args ls HF HV Hne HA); [exists ms, ms'; auto|exact H2]. }
  split; [exact HG|]. intros outs Ep Ho. pose proof (plain_als _ Ep) as Hne. destruct HG as (_ & _ & G2). destruct (G2 Hne) as [G3 G4]. split.
  - apply (@prim_ok n c2r th key args outs Hn HV Hne); [split; [reflexivity|]; split; [exact HA|exact G2]|exact Ho].
  - exact (@flow_out c2r th n Hn key args ls outs HF HV Hne HA G3 G4 Ho).
Qed.
Lemma okv_app a1 l1 a2 l2 : okv a1 l1 -> okv a2 l2 -> okv (a1 ++ a2) (l1 ++ l2). Proof. induction 1; cbn; auto. Qed.
Lemma okv_firstn k a l : okv a l -> okv (firstn k a) (firstn k l).
Proof. intros H. revert k. induction H; intros [|k]; cbn; constructor; auto. Qed.
Lemma okv_skipn k a l : okv a l -> okv (skipn k a) (skipn k l).
Proof. intros H. revert k. induction H; intros [|k]; cbn; try constructor; auto. Qed.
Lemma okv_const (m : lay) a : (forall v, In v a -> lay_ok th m v /\ vok n v) -> okv a (map (fun _ => m) a).
Proof. induction a as [|v a IH]; intros H; cbn; constructor; [apply H; left; reflexivity|apply IH; intros u Hu; apply H; right; exact Hu]. Qed.
Lemma const_okv {X} m a (c : list X) : okv a (map (fun _ => m) c) -> forall v, In v a -> lay_ok th m v /\ vok n v.
Proof. intros H. remember (map (fun _ => m) c) as ls eqn:E. revert c E. induction H as [|v l a ls H HF IH]; intros c E u Hu; [destruct Hu|]. destruct c as [|x c]; [discriminate|]. cbn in E. injection E as -> ->. destruct Hu as [<-|Hu]; [exact H|]. apply (IH c eq_refl u Hu). Qed.
Lemma zip_app (a1 a2 : list (arg R)) (l1 l2 : list lay) : length a1 = length l1 -> zip (a1 ++ a2) (l1 ++ l2) = zip a1 l1 ++ zip a2 l2.
Proof. revert l1. induction a1 as [|v a1 IH]; intros [|l l1] H; cbn in *; try discriminate; [reflexivity|]. f_equal. apply IH. lia. Qed.
Lemma zip_firstn k (a : list (arg R)) (l : list lay) : zip (firstn k a) (firstn k l) = firstn k (zip a l).
Proof. revert a l. induction k as [|k IH]; intros [|v a] [|x l]; cbn; try reflexivity. f_equal. apply IH. Qed.
Lemma zip_const (m : lay) (a : list (arg R)) : zip a (map (fun _ => m) a) = map (fun y => (y, m)) (vals a).
Proof. induction a as [|v a IH]; cbn; [reflexivity|]. f_equal. exact IH. Qed.
Lemma zip_skip_rows k t (a : list (arg R)) (l : list lay) : length a = length l -> map (fun x : lval => (row (fst x) t, LC)) (skipn k (zip a l)) = map (fun v => (row (aval v) t, LC)) (skipn k a).
Proof. revert a l. induction k as [|k IH]; intros a l; cbn [skipn].
  - revert l. induction a as [|v a IHa]; intros [|x l] H; cbn in *; try discriminate; [reflexivity|]. f_equal. apply IHa. lia.
  - destruct a as [|v a], l as [|x l]; cbn; try discriminate; [reflexivity|]. intros H. apply IH. lia.
Qed.
Lemma ops_zip (fs : list (op R)) key (args rs : list (arg R)) ls : okv args ls -> Some (map (fun f => o_fwd f (vals args)) fs) = Some (vals rs) ->
  combine (map (fun f => o_fwd f (map fst (zip args ls))) fs) (lay_out key (map snd (zip args ls))) = zip rs (lay_out key ls).
Proof. intros Ha E. rewrite (fst_zip (okv_lo Ha)), (snd_zip (okv_lo Ha)). injection E as ->. reflexivity. Qed.
Lemma flink_all k : flink k.
Proof.
  apply (@opk_all R prim flink); clear k.
  - intros key fs ms ms' args ls Hms Hmk Ha (-> & H1 & H2). rewrite (fst_zip (okv_lo Ha)) in H1, H2. destruct (@prim_case key args ls ms ms' Ha Hms Hmk H1 H2) as [HG HO]. split; [exact HG|].
    intros rs H. rewrite step_if in H. change (plain_of (KPrim key (prim_ops key)) (vals args)) with (Some (map (fun f => o_fwd f (vals args)) (prim_ops key))) in *.
    destruct (@ops_flow (prim_ops key) (eval_prim reg c2r key (prim_ops key)) args ls (lay_out key ls) Ha HO (out_len key ls) rs H) as [O1 O2]. split; [exact O1|]. exists (lay_out key ls). split; [|exact O2].
    change (lplain (KPrim key (prim_ops key)) (zip args ls)) with (Some (combine (map (fun f => o_fwd f (map fst (zip args ls))) (prim_ops key)) (lay_out key (map snd (zip args ls))))). f_equal. apply (ops_zip _ key rs Ha O1).
  - intros fs ms ms' args ls Hms Hmk Ha HS. change (forall f, In f fs -> fwd_ext f (map fst (zip args ls)) /\ (ldeps (zip args ls) <> [] -> op_ext f (map fst (zip args ls)) /\ smooth f (map fst (zip args ls)))) in HS.
    pose proof (okv_lo Ha) as HF. rewrite (fst_zip HF) in HS. destruct (@oks_vok th n args ls Ha) as [_ HV].
    assert (HG : custom_guard mixc fs args).
    { intros f Hf. destruct (HS f Hf) as (A & B). split; [exact A|]. intros Hne. destruct (B (ldeps_ne HF Hne)) as (B1 & B2). auto. }
    split; [exact HG|]. intros rs H. rewrite step_if in H. change (plain_of (KCustom fs) (vals args)) with (Some (map (fun f => o_fwd f (vals args)) fs)) in *.
    destruct (@ops_flow fs (list_rule c2r fs) args ls (map (fun _ => lay1 true ls) fs) Ha) with (rs := rs) as [O1 O2]; [|apply map_length|exact H|].
    { intros outs Ep Ho. pose proof (plain_als _ Ep) as Hne. destruct (@list_mix _ _ n _ _ _ _ _ Ho) as [M1 M2]. apply list_default in Ho. split; [|exact (@flow_customs c2r th n Hn fs args ls outs HF HV Hne Ho)].
      apply (@custom_ok n c2r th _ args outs Hn HV Hne M1 M2); [|exact Ho]. intros f Hf. destruct (HG f Hf) as [_ G1]. destruct (G1 Hne) as (A & B & _). auto. }
    split; [exact O1|]. exists (map (fun _ => lay1 true ls) fs). split; [|exact O2].
    change (lplain (KCustom fs) (zip args ls)) with (Some (map (fun f => (o_fwd f (map fst (zip args ls)), lay1 true (map snd (zip args ls)))) fs)). rewrite (fst_zip HF), (snd_zip HF). injection O1 as O1. rewrite <- O1. f_equal. clear. induction fs as [|f fs IH]; cbn; [reflexivity|]. f_equal. exact IH.
  - intros name j IH ms ms' args ls Hms Hmk Ha HS. pose proof (okv_lo Ha) as HF. pose proof (oks_len HF) as HL.
    change (flow_eq (KPjit name j) (zip args ls)) with (match name_prim name with Some key => (forall ys, length ys = length (zip args ls) -> plain_run j true ys = Some (map (fun f => o_fwd f ys) (prim_ops key))) /\ applies key (map fst (zip args ls)) /\ (ldeps (zip args ls) <> [] -> diff_at key (map fst (zip args ls)) /\ flow_prim key (zip args ls)) | None => flow_run j true (zip args ls) end) in HS.
    change (lplain (KPjit name j) (zip args ls)) with (match name_prim name with Some key => option_map (fun ys => combine ys (lay_out key (map snd (zip args ls)))) (plain_run j true (map fst (zip args ls))) | None => lrun j true (zip args ls) end).
    change (mk_of (KPjit name j) ms) with (match name_prim name with Some key => mk_prim key ms | None => mk_run j true ms end) in Hmk.
    rewrite good_pjit, pjit_plain. destruct (name_prim name) as [key|] eqn:Ek.
    + destruct HS as (H0 & H1 & H2). destruct (@name_regs c2r name key Ek) as (rl & E1 & E2). assert (EL : length (zip args ls) = length args) by (rewrite combine_length, map_length; lia). rewrite EL in H0. rewrite (fst_zip HF) in *. rewrite (snd_zip HF).
      destruct (@prim_case key args ls ms ms' Ha Hms Hmk H1 H2) as [HG HO]. rewrite E1. split; [exists key; auto|]. intros rs H. rewrite step_if, pjit_plain, E1 in H. rewrite H0 in * by apply map_length.
      destruct (@ops_flow (prim_ops key) rl args ls (lay_out key ls) Ha) with (rs := rs) as [O1 O2]; [|apply out_len|exact H|].
      { intros outs Ep Ho. apply HO; [exact Ep|]. unfold eval_prim. rewrite E2. exact Ho. }
      split; [exact O1|]. exists (lay_out key ls). split; [|exact O2]. injection O1 as ->. reflexivity.
    + assert (E1 : nreg name = None) by (unfold name_reg; rewrite Ek; reflexivity). rewrite E1. destruct (@flink_runs j IH true ms ms' args ls (proj2 Hms) Hmk Ha HS) as [L1 L2]. split; [exact L1|]. intros rs H. apply L2. rewrite step_if, pjit_plain, E1 in H.
      destruct (forallb isplain args) eqn:Ep; [|exact H]. rewrite <- (jrun_plain reg nreg c2r th), <- (plain_map _ Ep) in H. exact H.
  - intros nc nk T rv j IH ms ms' args ls Hms Hmk Ha HS. pose proof (okv_lo Ha) as HF. pose proof (oks_len HF) as HLen. pose proof (@flink_runs j IH) as HR. pose proof (okv_valid Ha) as HV.
    set (zs := zip args ls) in *. set (Mx := lay_carry nc nk ls).
    assert (EF : map fst zs = vals args) by apply (fst_zip HF). assert (ES : map snd zs = ls) by apply (snd_zip HF).
    change (shape_only_prog j /\ length (j_os j) = nk /\ (forall x, In x (skipn (nc + nk) (map fst zs)) -> exists s, sh x = T :: s) /\
      (forall l, In l (firstn (nc + nk) (map snd zs)) -> lay_le l (lay_carry nc nk (map snd zs))) /\
      gloop (piter j nc nk (map fst zs)) (fun c t => flow_run j false (iter_vals nc nk zs c t) /\ forall ys, lrun j false (iter_vals nc nk zs c t) = Some ys -> forall y, In y ys -> lay_le (snd y) (lay_carry nc nk (map snd zs)))
        (order T rv) (firstn nk (skipn nc (map fst zs)))) in HS.
    rewrite EF, ES in HS. destruct HS as (S0 & S1 & S2 & S4 & S3). fold Mx in S4, S3.
    change (mk_of (KScan nc nk T rv j) ms) with (match mfix (fun c => mk_run j false (firstn nc ms ++ c ++ map (fun _ => true) (skipn (nc + nk) ms))) nk (S nk) (firstn nk (skipn nc ms)) with
      None => None | Some (c, r) => Some (c ++ map (fun _ => false) (skipn nk r)) end) in Hmk.
    destruct (mfix _ nk (S nk) _) as [[cm rm]|] eqn:Ef; [|discriminate]. destruct (mfix_spec _ _ _ _ Ef) as (Fm1 & Fm2 & Fm3 & Fm4). destruct (carry_marks nc nk Hms) as [C1 C2]. rewrite C1 in Fm3.
    assert (Hm0 : mokw cm (s_carry nc nk args)) by (intros i Hi; apply C2, Fm4, Hi). pose proof (@minv_start nc nk args cm Fm3 Hm0) as Hminv.
    assert (Hout : forall l r, jeval j false l = Some r -> length r = nk).
    { intros l r Hr. rewrite jrun_eq in Hr. unfold runb, run0 in Hr. destruct (init0 _ _ _) as [E|]; [|discriminate]. destruct (exec0 _ _) as [E1|]; [|discriminate]. cbn [code_of c_outs] in Hr. rewrite <- S1. clear -Hr. revert r Hr. generalize (j_os j). induction l as [|a l IH]; intros r Hr; cbn [map read0_many] in Hr; [injection Hr as <-; reflexivity|].
      destruct (read0 E1 _); [|discriminate]. destruct (read0_many E1 _) as [ys|]; [|discriminate]. injection Hr as <-. cbn. f_equal. apply IH. reflexivity. }
    set (ok := fun c : list (arg R) => forall v, In v c -> lay_ok th Mx v /\ vok n v).
    assert (HLp : forall J, kept reg nreg c2r th j nc nk args J -> forall ts c, ok c -> minv args cm c -> J c -> gloop (piter j nc nk (vals args)) (fun c t => flow_run j false (iter_vals nc nk zs c t) /\ forall ys, lrun j false (iter_vals nc nk zs c t) = Some ys -> forall y, In y ys -> lay_le (snd y) Mx) ts (vals c) ->
      gloop (siter (jeval j false) nc nk args) (fun c t => goodr j false (s_cons nc args ++ c ++ map (fun x => AX (row (aval x) t)) (s_inp nc nk args))) ts c /\
      forall c' ys, loop (siter (jeval j false) nc nk args) ts c = Some (c', ys) -> (exists ys', loop (piter j nc nk (vals args)) ts (vals c) = Some (vals c', ys') /\ forall y, In y ys' -> y = []) /\ ok c' /\ forall y, In y ys -> y = []).
    { intros J HJ. induction ts as [|t ts IHt]; intros c Hc Hmc HJc HG; cbn [gloop loop] in *.
      - split; [exact I|]. intros c' ys [= <- <-]. split; [exists []; split; [reflexivity|intros y []]|]. split; [exact Hc|intros y []].
      - destruct HG as [[G1 G3] G2]. set (al := s_cons nc args ++ c ++ map (fun x => AX (row (aval x) t)) (s_inp nc nk args)).
        assert (Eal : vals al = firstn nc (vals args) ++ vals c ++ map (fun x => row x t) (skipn (nc + nk) (vals args))).
        { unfold al, s_cons, s_inp. rewrite !map_app, firstn_map, skipn_map, !map_map. reflexivity. }
        set (rws := map (fun x : arg R => AX (row (aval x) t)) (s_inp nc nk args)). set (la := firstn nc ls ++ map (fun _ => Mx) c ++ map (fun _ => LC) rws).
        assert (Hal : okv al la).
        { unfold al, la. apply okv_app; [apply okv_firstn; exact Ha|]. apply okv_app; [apply okv_const; exact Hc|]. apply okv_const. intros v Hv. unfold rws in Hv. apply in_map_iff in Hv. destruct Hv as (x & <- & _). split; [reflexivity|exact I]. }
        assert (Ezip : zip al la = iter_vals nc nk zs (vals c) t).
        { unfold al, la, iter_vals. rewrite ES. fold Mx rws. rewrite zip_app by (unfold s_cons; rewrite !firstn_length; lia). rewrite zip_app by (rewrite map_length; reflexivity). unfold s_cons, zs. rewrite zip_firstn, zip_const, (zip_const LC rws), zip_skip_rows by exact HLen. unfold rws, s_inp. rewrite !map_map. reflexivity. }
        rewrite <- Ezip in G1, G3. destruct (HR false _ rm al la (@minv_args nc nk ms args cm c t Hms Hmc) Fm1 Hal G1) as [R1 R2]. unfold piter in G2 at 1. unfold piter at 1. rewrite <- Eal in G2 |- *.
        destruct (siter (jeval j false) nc nk args c t) as [[c1 y1]|] eqn:Es; [|split; [split; [exact R1|exact I]|discriminate]].
        destruct (HJ c t c1 y1 HJc Es) as (r & us & Er & Ey & Eu & Ec & HJ1). fold al in Er. destruct (R2 r Er) as (R3 & lr & R4 & R5). rewrite R3 in G2 |- *.
        assert (F1 : firstn nk (vals r) = vals c1) by (rewrite Ec, (set_vals Eu); apply firstn_map). rewrite F1 in G2 |- *.
        assert (E0 : skipn nk r = []) by (apply skipn_all2; rewrite (Hout _ _ Er); lia). assert (F2 : skipn nk (vals r) = []) by (rewrite skipn_map, E0; reflexivity). rewrite F2.
        assert (Hr : ok r).
        { specialize (G3 _ R4). clear -R5 G3. intros v Hv. revert G3. induction R5 as [|u l r lr [Hu1 Hu2] R5 IHr]; intros G3; [destruct Hv|]. destruct Hv as [<-|Hv]; [|apply IHr; [exact Hv|]; intros y Hy; apply G3; right; exact Hy].
          split; [|exact Hu2]. apply (@lay_mono l Mx u); [|exact Hu1]. exact (G3 (aval u, l) (or_introl eq_refl)). }
        assert (Hc1 : ok c1).
        { rewrite Ec. assert (Hf : ok (firstn nk r)) by (intros v Hv; apply Hr; rewrite <- (firstn_skipn nk r); apply in_or_app; left; exact Hv). clear -Hf Eu. induction Eu as [|u v us vs He Eu IHu]; intros z Hz; cbn [map2] in Hz; [destruct Hz|].
          destruct Hz as [<-|Hz]; [destruct (Hf v (or_introl eq_refl)) as [X1 X2]; split; [exact (@lay_ext Mx v u He X1)|apply set_vok; [exact He|exact X2]]|]. apply IHu; [intros w Hw; apply Hf; right; exact Hw|exact Hz]. }
        assert (Hmc1 : minv args cm c1) by exact (@siter_marked c2r th j nc nk ms args cm rm (@mk_run_ok c2r th j) Hms Fm1 Fm2 Fm3 Hm0 c t c1 y1 Hmc Es).
        destruct (IHt c1 Hc1 Hmc1 HJ1 G2) as [I1 I2]. split; [split; [exact R1|exact I1]|].
        intros c' ys Hl. destruct (loop _ ts c1) as [[c2 ys2]|] eqn:El; [|discriminate]. injection Hl as <- <-. destruct (I2 c2 ys2 eq_refl) as ((ys' & J1 & J2) & J3 & J4). rewrite J1. rewrite Ey, E0.
        split; [eexists; split; [reflexivity|]; intros y [<-|Hy]; [reflexivity|apply J2, Hy]|]. split; [exact J3|]. intros y [<-|Hy]; [reflexivity|apply J4, Hy]. }
    assert (Hcar : ok (s_carry nc nk args)).
    { intros v Hv. pose proof (okv_firstn (nc + nk) Ha) as HA. assert (Hv' : In v (firstn (nc + nk) args)) by (unfold s_carry in Hv; rewrite firstn_skipn_comm in Hv; rewrite <- (firstn_skipn nc (firstn (nc + nk) args)); apply in_or_app; right; exact Hv). clear -HA Hv' S4.
      revert S4. induction HA as [|u l r lr [Hu1 Hu2] R5 IHr]; intros S4; [destruct Hv'|]. destruct Hv' as [<-|Hv]; [|apply IHr; [exact Hv|]; intros y Hy; apply S4; right; exact Hy].
      split; [|exact Hu2]. apply (@lay_mono l Mx u); [|exact Hu1]. exact (S4 l (or_introl eq_refl)). }
    assert (Ecar : vals (s_carry nc nk args) = firstn nk (skipn nc (vals args))) by (unfold s_carry; rewrite <- firstn_map, <- skipn_map; reflexivity).
    rewrite <- Ecar in S3.
    assert (HLq : admitted (jeval j false) nc nk args -> gloop (siter (jeval j false) nc nk args) (fun c t => goodr j false (s_cons nc args ++ c ++ map (fun x => AX (row (aval x) t)) (s_inp nc nk args))) (order T rv) (s_carry nc nk args) /\
      forall c' ys, loop (siter (jeval j false) nc nk args) (order T rv) (s_carry nc nk args) = Some (c', ys) -> (exists ys', loop (piter j nc nk (vals args)) (order T rv) (vals (s_carry nc nk args)) = Some (vals c', ys') /\ forall y, In y ys' -> y = []) /\ ok c' /\ forall y, In y ys -> y = []).
    { intros HA. destruct (@admit_kept prim reg nreg c2r th gst n tt1 (fun j0 nc0 nk0 a0 _ s0 => @shape_scan c2r th j0 nc0 nk0 a0 s0) j nc nk args HV S0 HA) as (J & J1 & J2). apply (HLp J J2); auto. }
    split.
    + change (scan_good (shape_only_prog j) (jeval j false) (goodr j false) nc nk T rv args). split; [exact S0|]. split; [|intros HA; destruct (HLq HA) as [L1 L2]; split; [|exact L1]].
      * intros v Hv. apply (S2 (aval v)). rewrite skipn_map. apply in_map. exact Hv.
      * intros c ys Hl. destruct (L2 c ys Hl) as (_ & _ & E). exists []. intros y Hy. rewrite (E y Hy). split; [reflexivity|intros v []].
    + intros rs H. destruct (@scan_any prim reg nreg c2r th nc nk T rv j args rs H) as (c & ys & us & K1 & -> & Hus & _ & HA & K4). destruct (HLq HA) as [L1 L2].
      destruct (L2 c ys K1) as ((ys' & J1 & J2) & J3 & J4).
      assert (HC : forall X (d : X) (l : list (list X)), (forall y, In y l -> y = []) -> cols d (unorder rv l) = []).
      { intros X d l Hl. unfold cols. assert (E0 : hd [] (unorder rv l) = []). { destruct (unorder rv l) as [|y m] eqn:E; [reflexivity|]. cbn. apply Hl. apply (proj1 (unorder_In rv l y)). rewrite E. left. reflexivity. } rewrite E0. reflexivity. }
      assert (EP : plain_of (KScan nc nk T rv j) (vals args) = Some (vals (map2 (@set_idx R) c us ++ map (@stack_arg R CRing_R) (cols (AX nd0) (unorder rv ys))))).
      { rewrite scan_plain. destruct (Nat.eqb_spec T 0); [congruence|]. rewrite <- Ecar, J1. rewrite (HC _ (AX nd0) ys J4), (HC _ nd0 ys' J2). cbn [map]. rewrite !app_nil_r. rewrite (set_vals Hus). reflexivity. }
      split; [exact EP|]. rewrite (HC _ (AX nd0) ys J4) in EP |- *. cbn [map] in EP |- *. rewrite app_nil_r in EP |- *. set (rs := map2 (@set_idx R) c us) in *. exists (map (fun _ => Mx) rs). split.
      * change (lplain (KScan nc nk T rv j) zs) with (option_map (map (fun y => (y, lay_carry nc nk (map snd zs)))) (plain_of (KScan nc nk T rv j) (map fst zs))). rewrite EF, ES, EP. cbn [option_map]. fold Mx. rewrite zip_const. reflexivity.
      * apply okv_const. unfold rs. clear -J3 Hus. induction Hus as [|u v us vs He Eu IHu]; intros z Hz; cbn [map2] in Hz; [destruct Hz|].
        destruct Hz as [<-|Hz]; [destruct (J3 v (or_introl eq_refl)) as [X1 X2]; split; [exact (@lay_ext Mx v u He X1)|apply set_vok; [exact He|exact X2]]|]. apply IHu; [intros w Hw; apply J3; right; exact Hw|exact Hz].
Qed.
Theorem flow_good j ms ms' args ls : mokw ms args -> mk_run j true ms = Some ms' -> okv args ls -> flow_run j true (zip args ls) ->
  regular_mix c2r th n j args /\ forall rs, jeval j true args = Some rs -> plain_run j true (vals args) = Some (vals rs) /\ exists ls', lrun j true (zip args ls) = Some (zip rs ls') /\ okv rs ls'.
Proof. intros H1 H2 HV HS. apply (@flink_runs j (fun k _ => @flink_all k) true ms ms' args ls H1 H2 HV HS). Qed.
End FProg.

(* ---- forward_laplacian ---- *)
Local Notation fwd c2r := (forward_laplacian (prim_reg c2r) (name_reg c2r) c2r).
(* the layouts of the inputs: forward_laplacian makes their Jacobians sparse, or dense with one row per input (no /repo code: specification) *)
Definition inputs_flow (xs : list (nd R)) : list lval := map (fun x => (x, LT)) xs.
Lemma seeds_flow th ws xs : wts_ok ws xs -> Forall2 (fun (v : arg R) l => lay_ok th l v /\ vok (total (map (@sh R) xs)) v) (seeds (0 <? th)%Z ws xs) (map (fun _ => LT) (seeds (0 <? th)%Z ws xs)).
Proof.
  intros HW. destruct (@seeds_tight th ws xs HW) as [H1 H2]. rewrite Forall_forall in H1. apply okv_const. intros v Hv. split; [exact (H1 v Hv)|exact (H2 v Hv)].
Qed.
Lemma zip_seeds sparse ws xs : combine (map (@aval R) (seeds sparse ws xs)) (map (fun _ => LT) (seeds sparse ws xs)) = inputs_flow xs.
Proof. rewrite zip_const, seeds_values. reflexivity. Qed.
Theorem run_flow c2r th n (Hn : 0 < n) j ms ms' args ls rs W : mokw ms args -> mk_run j true ms = Some ms' -> Forall2 (fun (v : arg R) l => lay_ok th l v /\ vok n v) args ls -> flow_run j true (combine (map (@aval R) args) ls) ->
  jrun (prim_reg c2r) (name_reg c2r) c2r false th j true args = Some rs -> tracks n args W ->
  (exists P, (forall i, i < n -> near (fun t => plain_run j true (W i t) = Some (P i t))) /\ tracks n rs P) /\ plain_run j true (map (@aval R) args) = Some (map (@aval R) rs) /\
  exists ls', lrun j true (combine (map (@aval R) args) ls) = Some (combine (map (@aval R) rs) ls') /\ Forall2 (fun (v : arg R) l => lay_ok th l v /\ vok n v) rs ls'.
Proof.
  intros HM Hm Ha HF H HT. destruct (@flow_good c2r th n Hn j ms ms' args ls HM Hm Ha HF) as [G1 G2]. destruct (G2 rs H) as (G3 & G4). split; [exact (@run_mixed c2r th n j args rs W Hn H G1 HT)|]. split; [exact G3|exact G4].
Qed.
Theorem forward_flow c2r t j ws xs rs : 0 < total (map (@sh R) xs) -> wts_ok ws xs -> smallj j -> typed_complex j -> flow_run j true (inputs_flow xs) ->
  fwd c2r t j ws (map (@AX R) xs) = Some rs -> exact_at (plain_run j true) xs (coord_weight ws xs) rs /\ map (@aval R) rs = match plain_run j true xs with Some ys => ys | None => [] end /\
  forall a, In (AL a) rs -> awf (total (map (@sh R) xs)) a /\ jrow1 (ljac a).
Proof.
  intros Hn HW HS HM HR H. unfold forward_laplacian in H. cbv zeta in H. set (th := threshold_of t (map (fun v => prod (sh (aval v))) (map (@AX R) xs))) in *.
  rewrite init_plain in H. rewrite jrun_frees_nothing in H by exact HS. unfold typed_complex in HM. destruct (mk_run j true _) as [ms'|] eqn:Em; [|congruence].
  assert (HR' : flow_run j true (combine (map (@aval R) (seeds (0 <? th)%Z ws xs)) (map (fun _ => LT) (seeds (0 <? th)%Z ws xs)))) by (rewrite zip_seeds; exact HR).
  destruct (@run_flow c2r th _ Hn j _ _ _ _ rs _ (mokw_falses (j_ivs j) _) Em (@seeds_flow th ws xs HW) HR' H (@seed_tracks (0 <? th)%Z ws xs HW)) as ((P & P1 & P2) & P3 & ls' & P4 & P5).
  split; [apply (@tracks_exact _ xs _ rs P Hn P1 P2)|]. rewrite seeds_values in P3. rewrite P3. split; [reflexivity|]. intros a Ha. exact (proj2 (@oks_vok th _ rs ls' P5) _ Ha).
Qed.
(* composition with a second call whose threshold may be larger: then dense Jacobians may have fewer rows than that threshold (no /repo code: specification) *)
Definition relay (keep : bool) (x : lval) : lval := (fst x, match snd x with LT => if keep then LT else LA | l => l end).
Lemma relay_ok th th2 n (rs : list (arg R)) ls : Forall2 (fun (v : arg R) l => lay_ok th l v /\ vok n v) rs ls ->
  exists ls2, map (relay (th2 <=? th)%Z) (combine (map (@aval R) rs) ls) = combine (map (@aval R) rs) ls2 /\ Forall2 (fun (v : arg R) l => lay_ok th2 l v /\ vok n v) rs ls2.
Proof.
  induction 1 as [|v l rs ls [H1 H2] HF (ls2 & I1 & I2)]; [exists []; split; [reflexivity|constructor]|].
  exists (match l with LT => if (th2 <=? th)%Z then LT else LA | l => l end :: ls2). split; [cbn [map combine]; apply f_equal2; [destruct l; reflexivity|exact I1]|]. constructor; [|exact I2]. split; [|exact H2].
  destruct l; cbn [lay_ok] in *; auto. destruct (Z.leb_spec th2 th); [|exact I]. assert (HT : Forall (tight th) [v]) by (constructor; [exact H1|constructor]). pose proof (tight_le H HT) as K. inversion K; assumption.
Qed.
Theorem compose_flow c2r t t2 f g ms ws ws2 xs zs rs rs2 : 0 < total (map (@sh R) xs) -> wts_ok ws xs -> smallj f -> smallj g ->
  mk_run f true (map (fun _ => false) (j_ivs f)) = Some ms -> mk_run g true ms <> None ->
  flow_run f true (inputs_flow xs) -> lrun f true (inputs_flow xs) = Some zs -> fwd c2r t f ws (map (@AX R) xs) = Some rs -> existsb (@is_al R) rs = true ->
  flow_run g true (map (relay (th_of t2 rs <=? th_of t (map (@AX R) xs))%Z) zs) -> fwd c2r t2 g ws2 rs = Some rs2 -> exact_at (then_ f g) xs (coord_weight ws xs) rs2.
Proof.
  intros Hn HW HS HS2 HMf HMg HR HZ H He HR2 H2. unfold forward_laplacian in H, H2. cbv zeta in H, H2. change (threshold_of t (map (fun v => prod (sh (aval v))) (map (@AX R) xs))) with (th_of t (map (@AX R) xs)) in H. change (threshold_of t2 (map (fun v => prod (sh (aval v))) rs)) with (th_of t2 rs) in H2.
  set (th := th_of t (map (@AX R) xs)) in *. rewrite init_plain in H. rewrite jrun_frees_nothing in H by exact HS.
  assert (HR' : flow_run f true (combine (map (@aval R) (seeds (0 <? th)%Z ws xs)) (map (fun _ => LT) (seeds (0 <? th)%Z ws xs)))) by (rewrite zip_seeds; exact HR).
  destruct (@run_flow c2r th _ Hn f _ _ _ _ rs _ (mokw_falses (j_ivs f) _) HMf (@seeds_flow th ws xs HW) HR' H (@seed_tracks (0 <? th)%Z ws xs HW)) as ((P & P1 & P2) & P3 & ls' & P4 & P5).
  rewrite zip_seeds, HZ in P4. assert (EZ : zs = combine (map (@aval R) rs) ls') by congruence. subst zs. clear P4.
  pose proof (@mk_run_ok c2r th f true _ ms _ rs (mokw_falses (j_ivs f) _) HMf H) as [_ HMr].
  unfold init_state in H2. rewrite He in H2. rewrite jrun_frees_nothing in H2 by exact HS2. destruct (mk_run g true ms) as [ms'|] eqn:Eg; [|congruence].
  destruct (@relay_ok th (th_of t2 rs) _ rs ls' P5) as (ls2 & L1 & L2). rewrite L1 in HR2.
  destruct (@run_flow c2r (th_of t2 rs) _ Hn g ms ms' rs ls2 rs2 P HMr Eg L2 HR2 H2 P2) as ((Q & Q1 & Q2) & _).
  apply (@tracks_exact _ xs _ rs2 Q Hn (@near_then _ f g xs _ P Q P1 Q1) Q2).
Qed.
