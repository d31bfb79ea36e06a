(* CalcPlain.v : the regularity condition of CalcTop.v from plain evaluation of the program. *)
From Coq Require Import Reals Lra.
From Coquelicot Require Import Coquelicot.
From Verif Require Export CalcTop.
Set Implicit Arguments.
Open Scope nat_scope.

(* every primitive of the program is twice differentiable at the values it meets when the program is run on plain arrays.
   Scans: the scanned arrays have length T and nothing is stacked (see C29 for stacked outputs). *)
Section SM.
(* cond, condc, sc: further conditions on primitives, on custom_jvp calls and on scans (none for C01) *)
Context (cond : prim -> list (nd R) -> Prop) (condc : list (nd R) -> Prop) (sc : @jaxpr R prim -> nat -> nat -> list (nd R) -> Prop).
Fixpoint smooth_eqP (k : @opk R prim) (xs : list (nd R)) {struct k} : Prop :=
  match k with
  | KPrim key fs => fs = (prim_ops key) /\ applies key xs /\ diff_at key xs /\ cond key xs
  | KCustom fs => condc xs /\ forall f, In f fs -> fwd_ext f xs /\ op_ext f xs /\ smooth f xs
  | KPjit name j => match name_prim name with
      | Some key => (forall ys, length ys = length xs -> plain_run j true ys = Some (map (fun f => o_fwd f ys) (prim_ops key))) /\ applies key xs /\ diff_at key xs /\ cond key xs
      | None => smooth_runP j true xs
      end
  | KScan nc nk T rv j => sc j nc nk xs /\ length (j_os j) = nk /\ (forall x, In x (skipn (nc + nk) xs) -> exists s, sh x = T :: s) /\
      gloop (piter j nc nk xs) (fun c t => smooth_runP j false (firstn nc xs ++ c ++ map (fun x => row x t) (skipn (nc + nk) xs))) (order T rv) (firstn nk (skipn nc xs))
  end
with smooth_runP (j : @jaxpr R prim) (closed : bool) (xs : list (nd R)) {struct j} : Prop :=
  match j with Jaxpr cvs ivs cs es os =>
    match init0 (Code cvs ivs [] []) (if closed then cs else []) xs with
    | None => True
    | Some E => gexec E (map (fun e => match e with Eqn k i o => (Instr i o (plain_of k), smooth_eqP k) end) es)
    end end.
Lemma smooth_run_eq j closed xs : smooth_runP j closed xs =
  match init0 (pcode_of j) (if closed then j_cs j else []) xs with None => True | Some E => gexec E (map (fun e => (pinstr_of e, smooth_eqP (kind_of e))) (j_es j)) end.
Proof.
  destruct j as [cvs ivs cs es os]. cbn [smooth_runP]. unfold pcode_of, init0. cbn [j_cvs j_ivs j_cs j_es c_consts c_ins].
  destruct (write0_many _ cvs _); [|reflexivity]. destruct (write0_many _ ivs _); [|reflexivity]. f_equal. apply map_ext. intros [k i o]. reflexivity.
Qed.
End SM.
Definition smooth_run : @jaxpr R prim -> bool -> list (nd R) -> Prop := smooth_runP (fun _ _ => True) (fun _ => True) (fun _ _ _ _ => True).

Section PL.
Context (c2r : bool) (th : Z) (n : nat) (D : arg R -> Prop) (HX : forall x, D (AX x)).
Context (cond : prim -> list (nd R) -> Prop) (condc : list (nd R) -> Prop) (sc : @jaxpr R prim -> nat -> nat -> list (nd R) -> Prop).
Notation vals := (map (@aval R)).
Notation mixt := (fun (k : prim) (a : list (arg R)) => cond k (vals a)). Notation mixct := (fun a : list (arg R) => condc (vals a)). Notation gst := (fun (j : @jaxpr R prim) (nc nk : nat) (a : list (arg R)) => sc j nc nk (vals a)).
Context (Hp : forall key args outs, valid n D args -> als args <> [] -> eq_guard mixt key (prim_ops key) args -> eval_prim (prim_reg c2r) c2r key (prim_ops key) th args = Some outs -> prim_good n (prim_ops key) args outs /\ Forall D outs).
Context (Hcu : forall fs args outs, valid n D args -> als args <> [] -> custom_guard mixct fs args -> list_rule c2r fs th args = Some outs -> prim_good n fs args outs /\ Forall D outs).
Context (HDE : forall v u, ext_idx u v -> D v -> D (set_idx v u)).
Context (HGS : forall j nc nk args, sc j nc nk (vals args) -> valid n D args -> keeps_carry c2r th j nc nk args).
Notation smooth_eq := (smooth_eqP cond condc sc). Notation smooth_run := (smooth_runP cond condc sc).
Notation reg := (prim_reg c2r). Notation nreg := (name_reg c2r).
Notation step := (step_of reg nreg c2r false th).
Notation jeval := (jrun reg nreg c2r false th).
Notation instr_at := (instr_of reg nreg c2r false th).
Notation goodk := (good reg nreg c2r th (eq_guard mixt) (custom_guard mixct) (name_guard mixt) gst).
Notation goodr := (good_run reg nreg c2r th (eq_guard mixt) (custom_guard mixct) (name_guard mixt) gst).
Notation ok := (valid n (D)).
Definition link (k : @opk R prim) : Prop := forall args, ok args -> smooth_eq k (vals args) -> goodk k args /\ forall rs, step k args = Some rs -> plain_of k (vals args) = Some (vals rs) /\ ok rs.
Definition link_run (j : @jaxpr R prim) : Prop := forall closed args, ok args -> smooth_run j closed (vals args) -> goodr j closed args /\
  forall rs, jeval j closed args = Some rs -> plain_run j closed (vals args) = Some (vals rs) /\ ok rs.
Definition lenv (E : @env0 (arg R)) (F : @env0 (nd R)) : Prop := forall v, F v = option_map (@aval R) (E v) /\ forall a, E v = Some a -> D a /\ vok n a.
Lemma ok_cons v l : ok (v :: l) <-> (D v /\ vok n v) /\ ok l.
Proof.
  unfold valid. split.
  - intros [H1 H2]. inversion H1; subst. split; [split; [assumption|apply (H2 v); left; reflexivity]|]. split; [assumption|]. intros u Hu. apply (H2 u). right. exact Hu.
  - intros [[H1 H2] [H3 H4]]. split; [constructor; assumption|]. intros u [<-|Hu]; [exact H2|apply H4, Hu].
Qed.
Lemma ok_nil : ok []. Proof. split; [constructor|intros v []]. Qed.
Lemma ok_plain xs : ok (map (@AX R) xs).
Proof. induction xs as [|x xs IH]; [apply ok_nil|]. cbn [map]. apply ok_cons. split; [split; [apply HX|exact I]|exact IH]. Qed.
Lemma ok_app l m : ok (l ++ m) <-> ok l /\ ok m.
Proof. induction l as [|v l IH]; cbn [app]; [split; [intros H; split; [apply ok_nil|exact H]|tauto]|]. rewrite !ok_cons, IH. tauto. Qed.
Lemma ok_firstn k l : ok l -> ok (firstn k l).
Proof. intros H. rewrite <- (firstn_skipn k l) in H. apply ok_app in H. apply H. Qed.
Lemma ok_skipn k l : ok l -> ok (skipn k l).
Proof. intros H. rewrite <- (firstn_skipn k l) in H. apply ok_app in H. apply H. Qed.
Lemma lenv_read E F l : lenv E F -> read0_many F l = option_map vals (read0_many E (map (@plain_atom R) l)) /\ forall xs, read0_many E (map (@plain_atom R) l) = Some xs -> ok xs.
Proof.
  intros HE. induction l as [|a l [IH1 IH2]]; cbn [map read0_many].
  - split; [reflexivity|]. intros xs [= <-]. apply ok_nil.
  - destruct a as [v|x]; cbn [plain_atom read0].
    + destruct (HE v) as [H1 H2]. rewrite H1, IH1. destruct (E v) as [a|] eqn:Ea; cbn [option_map]; [|split; [reflexivity|discriminate]]. destruct (read0_many E _) as [ys|]; cbn [option_map]; [|split; [reflexivity|discriminate]].
      split; [reflexivity|]. intros xs [= <-]. apply ok_cons. split; [apply (H2 a eq_refl)|apply IH2; reflexivity].
    + rewrite IH1. destruct (read0_many E _) as [ys|]; cbn [option_map]; [|split; [reflexivity|discriminate]]. split; [reflexivity|]. intros xs [= <-]. apply ok_cons. split; [split; [apply HX|exact I]|apply IH2; reflexivity].
Qed.
Lemma lenv_write vs : forall E F xs E1, lenv E F -> ok xs -> write0_many E vs xs = Some E1 -> exists F1, write0_many F vs (vals xs) = Some F1 /\ lenv E1 F1.
Proof.
  induction vs as [|v vs IH]; intros E F [|x xs] E1 HE Hx H; cbn [write0_many map] in *; try discriminate.
  - injection H as <-. eauto.
  - apply ok_cons in Hx. destruct Hx as [Hv Hx]. apply (IH (vset E v (Some x)) (vset F v (Some (aval x))) xs E1); auto. intros u. unfold vset. destruct (Nat.eqb_spec u v) as [Eu|Eu]; [|apply HE]. split; [reflexivity|]. intros a [= <-]. exact Hv.
Qed.
Lemma link_exec es : (forall e, In e es -> link (kind_of e)) -> forall E F, lenv E F -> gexec F (map (fun e => (pinstr_of e, smooth_eq (kind_of e))) es) ->
  gexec E (map (fun e => (instr_at e, goodk (kind_of e))) es) /\ forall E1, exec0 E (map instr_at es) = Some E1 -> exists F1, exec0 F (map (@pinstr_of R CRing_R prim) es) = Some F1 /\ lenv E1 F1.
Proof.
  induction es as [|e es IH]; intros HL E F HE HG; cbn [map gexec exec0] in *.
  - split; [exact I|]. intros E1 [= <-]. eauto.
  - unfold exec0_1. cbn [instr_of pinstr_of i_in i_out i_step] in *. destruct (lenv_read (ins_of e) HE) as [R1 R2]. rewrite R1 in HG |- *.
    destruct (read0_many E (map (@plain_atom R) (ins_of e))) as [xs|] eqn:Er; cbn [option_map] in *; [|split; [exact I|discriminate]].
    destruct HG as [G1 G2]. destruct (HL e (or_introl eq_refl) xs (R2 xs eq_refl) G1) as [L1 L2]. destruct (step (kind_of e) xs) as [ys|] eqn:Es; [|split; [split; [exact L1|exact I]|discriminate]].
    destruct (L2 ys eq_refl) as [L3 L4]. rewrite L3 in G2 |- *. destruct (write0_many E (outs_of e) ys) as [E2|] eqn:Ew; [|split; [split; [exact L1|exact I]|discriminate]].
    destruct (@lenv_write (outs_of e) E F ys E2 HE L4 Ew) as (F2 & W1 & W2). rewrite W1 in G2 |- *. destruct (IH (fun e' He => HL e' (or_intror He)) E2 F2 W2 G2) as [I1 I2]. split; [split; [exact L1|exact I1]|exact I2].
Qed.
Lemma link_runs j : (forall k, In k (subops j) -> link k) -> link_run j.
Proof.
  intros HL closed args Ha HS. rewrite good_run_eq, jrun_eq, plain_run_eq. rewrite smooth_run_eq in HS. unfold runb, run0. unfold init0 in *. cbn [code_of pcode_of c_consts c_ins c_eqns c_outs] in *.
  assert (HC : consts_of j closed = map (@AX R) (if closed then j_cs j else [])) by (unfold consts_of; destruct closed; reflexivity). rewrite HC. set (cs := if closed then j_cs j else []) in *.
  destruct (write0_many (fun _ => None) (j_cvs j) (map (@AX R) cs)) as [Ec|] eqn:Wc; [|split; [exact I|discriminate]].
  assert (H0 : lenv (fun _ => None) (fun _ => None)) by (intros v; split; [reflexivity|discriminate]).
  destruct (@lenv_write _ _ _ _ _ H0 (ok_plain cs) Wc) as (Fc & A1 & A2). rewrite avals_AX in A1. rewrite A1 in HS |- *.
  destruct (write0_many Ec (j_ivs j) args) as [E0|] eqn:Wi; [|split; [exact I|discriminate]]. destruct (@lenv_write _ _ _ _ _ A2 Ha Wi) as (F0 & B1 & B2). rewrite B1 in HS |- *.
  destruct (@link_exec (j_es j)) with (E := E0) (F := F0) as [C1 C2]; auto.
  { intros e He. apply HL. unfold subops. apply in_map_iff. exists e. split; auto. }
  split; [exact C1|]. intros rs HR. destruct (exec0 E0 (map instr_at (j_es j))) as [E1|] eqn:X; [|discriminate]. destruct (C2 E1 eq_refl) as (F1 & D1 & D2). rewrite D1. destruct (lenv_read (j_os j) D2) as [R1 R2]. rewrite HR in R1. split; [exact R1|apply R2; exact HR].
Qed.
(* primitives *)
Lemma good_vals fs args rs : prim_good n fs args rs -> map (fun f => o_fwd f (vals args)) fs = vals rs /\ forall v, In v rs -> vok n v.
Proof.
  induction 1 as [|f o fs os Ho H [IH1 IH2]]; [split; [reflexivity|intros v []]|]. cbn [map]. split.
  - f_equal; [|exact IH1]. destruct o as [a|y]; [destruct Ho as ((E & _) & _); symmetry; exact E|destruct Ho as [E _]; symmetry; exact E].
  - intros v [<-|Hv]; [|apply IH2, Hv]. destruct o as [a|y]; [|exact I]. destruct Ho as ((_ & H1 & _) & H2 & _). split; auto.
Qed.
Lemma ops_link fs rl args : (forall outs, forallb isplain args = false -> rl th args = Some outs -> prim_good n fs args outs /\ Forall (D) outs) ->
  forall rs, (if forallb isplain args then option_map (map (@AX R)) (Some (map (fun f => o_fwd f (vals args)) fs)) else rl th args) = Some rs -> Some (map (fun f => o_fwd f (vals args)) fs) = Some (vals rs) /\ ok rs.
Proof.
  intros HR rs H. destruct (forallb isplain args) eqn:Ep.
  - cbn [option_map] in H. injection H as <-. split; [rewrite avals_AX; reflexivity|apply ok_plain].
  - destruct (HR rs eq_refl H) as [H1 H2]. destruct (good_vals H1) as [V1 V2]. split; [f_equal; exact V1|split; [exact H2|exact V2]].
Qed.
Lemma name_regs name k : name_prim name = Some k -> exists rl, nreg name = Some rl /\ reg k = Some rl.
Proof. intros E. unfold name_reg. rewrite E. do 7 (destruct name as [|name]; [injection E as <-; eexists; split; reflexivity|]). discriminate. Qed.
Lemma link_all k : link k.
Proof.
  apply (@opk_all R prim link); clear k.
  - intros key fs args HV (-> & H1 & H2 & H3). assert (HG : eq_guard mixt key (prim_ops key) args) by (split; [reflexivity|]; split; [exact H1|]; intros _; split; [exact H2|exact H3]). split; [exact HG|].
    intros rs H. rewrite step_if in H. change (plain_of (KPrim key (prim_ops key)) (vals args)) with (Some (map (fun f => o_fwd f (vals args)) (prim_ops key))) in *.
    apply (@ops_link (prim_ops key) (eval_prim reg c2r key (prim_ops key)) args); [|exact H]. intros outs Ep Ho. apply (@Hp key args outs HV (plain_als _ Ep) HG Ho).
  - intros fs args HV [HC HS]. assert (HG : custom_guard mixct fs args) by (intros f Hf; destruct (HS f Hf) as (A & B & C); split; [exact A|]; intros _; auto). split; [exact HG|].
    intros rs H. rewrite step_if in H. change (plain_of (KCustom fs) (vals args)) with (Some (map (fun f => o_fwd f (vals args)) fs)) in *.
    apply (@ops_link fs (list_rule c2r fs) args); [|exact H]. intros outs Ep Ho. apply (@Hcu fs args outs HV (plain_als _ Ep) HG Ho).
  - intros name j IH args HV HS. change (smooth_eq (KPjit name j) (vals args)) with (match name_prim name with Some key => (forall ys, length ys = length (vals args) -> plain_run j true ys = Some (map (fun f => o_fwd f ys) (prim_ops key))) /\ applies key (vals args) /\ diff_at key (vals args) /\ cond key (vals args) | None => smooth_run j true (vals args) end) in HS.
    rewrite good_pjit, pjit_plain. destruct (name_prim name) as [key|] eqn:Ek.
    + destruct HS as (H0 & H1 & H2 & H3). destruct (@name_regs name key Ek) as (rl & E1 & E2). rewrite map_length in H0. assert (HG : eq_guard mixt key (prim_ops key) args) by (split; [reflexivity|]; split; [exact H1|]; intros _; split; [exact H2|exact H3]).
      rewrite E1. split; [exists key; auto|]. intros rs H. rewrite step_if, pjit_plain, E1 in H. rewrite H0 in * by apply map_length.
      apply (@ops_link (prim_ops key) rl args); [|exact H]. intros outs Ep Ho. apply (@Hp key args outs HV (plain_als _ Ep) HG). unfold eval_prim. rewrite E2. exact Ho.
    + assert (E1 : nreg name = None) by (unfold name_reg; rewrite Ek; reflexivity). rewrite E1. destruct (@link_runs j IH true args HV HS) as [L1 L2]. split; [exact L1|]. intros rs H. apply L2. rewrite step_if, pjit_plain, E1 in H.
      destruct (forallb isplain args) eqn:Ep; [|exact H]. rewrite <- (jrun_plain reg nreg c2r th), <- (plain_map _ Ep) in H. exact H.
  - intros nc nk T rv j IH args HV (S0 & S1 & S2 & S3). pose proof (@link_runs j IH) as HR.
    assert (Hout : forall l r, jeval j false l = Some r -> length r = nk).
    { intros l r Hr. rewrite jrun_eq in Hr. unfold runb, run0 in Hr. destruct (init0 _ _ _) as [E|]; [|discriminate]. destruct (exec0 _ _) as [E1|]; [|discriminate]. cbn [code_of c_outs] in Hr. rewrite <- S1. clear -Hr. revert r Hr. generalize (j_os j). induction l as [|a l IH]; intros r Hr; cbn [map read0_many] in Hr; [injection Hr as <-; reflexivity|].
      destruct (read0 E1 _); [|discriminate]. destruct (read0_many E1 _) as [ys|]; [|discriminate]. injection Hr as <-. cbn. f_equal. apply IH. reflexivity. }
    assert (HLp : forall J, kept reg nreg c2r th j nc nk args J -> forall ts c, ok c -> J c -> gloop (piter j nc nk (vals args)) (fun c t => smooth_run j false (firstn nc (vals args) ++ c ++ map (fun x => row x t) (skipn (nc + nk) (vals args)))) ts (vals c) ->
      gloop (siter (jeval j false) nc nk args) (fun c t => goodr j false (s_cons nc args ++ c ++ map (fun x => AX (row (aval x) t)) (s_inp nc nk args))) ts c /\
      forall c' ys, loop (siter (jeval j false) nc nk args) ts c = Some (c', ys) -> (exists ys', loop (piter j nc nk (vals args)) ts (vals c) = Some (vals c', ys') /\ forall y, In y ys' -> y = []) /\ ok c' /\ forall y, In y ys -> y = []).
    { intros J HJ. induction ts as [|t ts IHt]; intros c Hc HJc HG; cbn [gloop loop] in *.
      - split; [exact I|]. intros c' ys [= <- <-]. split; [exists []; split; [reflexivity|intros y []]|]. split; [exact Hc|intros y []].
      - destruct HG as [G1 G2]. set (al := s_cons nc args ++ c ++ map (fun x => AX (row (aval x) t)) (s_inp nc nk args)).
        assert (Eal : vals al = firstn nc (vals args) ++ vals c ++ map (fun x => row x t) (skipn (nc + nk) (vals args))).
        { unfold al, s_cons, s_inp. rewrite !map_app, firstn_map, skipn_map, !map_map. reflexivity. }
        assert (Hal : ok al). { unfold al. apply ok_app. split; [apply ok_firstn; exact HV|]. apply ok_app. split; [exact Hc|]. rewrite <- map_map with (f := fun x => row (aval x) t) (g := @AX R). apply ok_plain. }
        rewrite <- Eal in G1. destruct (HR false al Hal G1) as [R1 R2]. unfold piter in G2 at 1. unfold piter at 1. rewrite <- Eal in G2 |- *.
        destruct (siter (jeval j false) nc nk args c t) as [[c1 y1]|] eqn:Es; [|split; [split; [exact R1|exact I]|discriminate]].
        destruct (HJ c t c1 y1 HJc Es) as (r & us & Er & Ey & Eu & Ec & HJ1). fold al in Er. destruct (R2 r Er) as [R3 R4]. rewrite R3 in G2 |- *.
        assert (F1 : firstn nk (vals r) = vals c1) by (rewrite Ec, (set_vals Eu); apply firstn_map). rewrite F1 in G2 |- *.
        assert (E0 : skipn nk r = []) by (apply skipn_all2; rewrite (Hout _ _ Er); lia). assert (F2 : skipn nk (vals r) = []) by (rewrite skipn_map, E0; reflexivity). rewrite F2.
        assert (Hc1 : ok c1) by (rewrite Ec; apply (set_valid HDE Eu); apply ok_firstn; exact R4).
        destruct (IHt c1 Hc1 HJ1 G2) as [I1 I2]. split; [split; [exact R1|exact I1]|].
        intros c' ys Hl. destruct (loop _ ts c1) as [[c2 ys2]|] eqn:El; [|discriminate]. injection Hl as <- <-. destruct (I2 c2 ys2 eq_refl) as ((ys' & J1 & J2) & J3 & J4). rewrite J1. rewrite Ey, E0.
        split; [eexists; split; [reflexivity|]; intros y [<-|Hy]; [reflexivity|apply J2, Hy]|]. split; [exact J3|]. intros y [<-|Hy]; [reflexivity|apply J4, Hy]. }
    assert (Hcar : ok (s_carry nc nk args)) by (unfold s_carry; apply ok_firstn, ok_skipn; exact HV). assert (Ecar : vals (s_carry nc nk args) = firstn nk (skipn nc (vals args))) by (unfold s_carry; rewrite <- firstn_map, <- skipn_map; reflexivity).
    rewrite <- Ecar in S3.
    assert (HLq : admitted (jeval j false) nc nk args -> gloop (siter (jeval j false) nc nk args) (fun c t => goodr j false (s_cons nc args ++ c ++ map (fun x => AX (row (aval x) t)) (s_inp nc nk args))) (order T rv) (s_carry nc nk args) /\
      forall c' ys, loop (siter (jeval j false) nc nk args) (order T rv) (s_carry nc nk args) = Some (c', ys) -> (exists ys', loop (piter j nc nk (vals args)) (order T rv) (vals (s_carry nc nk args)) = Some (vals c', ys') /\ forall y, In y ys' -> y = []) /\ ok c' /\ forall y, In y ys -> y = []).
    { intros HA. destruct (@admit_kept prim reg nreg c2r th gst n D (fun j0 nc0 nk0 a0 HV0 s0 => @HGS j0 nc0 nk0 a0 s0 HV0) j nc nk args HV S0 HA) as (J & J1 & J2). apply (HLp J J2); auto. }
    split.
    + change (scan_good (sc j nc nk (vals args)) (jeval j false) (goodr j false) nc nk T rv args). split; [exact S0|]. split; [|intros HA; destruct (HLq HA) as [L1 L2]; split; [|exact L1]].
      * intros v Hv. apply (S2 (aval v)). rewrite skipn_map. apply in_map. exact Hv.
      * intros c ys Hl. destruct (L2 c ys Hl) as (_ & _ & E). exists []. intros y Hy. rewrite (E y Hy). split; [reflexivity|intros v []].
    + intros rs H. destruct (@scan_any prim reg nreg c2r th nc nk T rv j args rs H) as (c & ys & us & K1 & -> & Hus & _ & HA & K4). destruct (HLq HA) as [L1 L2].
      destruct (L2 c ys K1) as ((ys' & J1 & J2) & J3 & J4). rewrite scan_plain. destruct (Nat.eqb_spec T 0); [congruence|]. rewrite <- Ecar, J1.
      assert (HC : forall X (d : X) (l : list (list X)), (forall y, In y l -> y = []) -> cols d (unorder rv l) = []).
      { intros X d l Hl. unfold cols. assert (E0 : hd [] (unorder rv l) = []). { destruct (unorder rv l) as [|y m] eqn:E; [reflexivity|]. cbn. apply Hl. apply (proj1 (unorder_In rv l y)). rewrite E. left. reflexivity. } rewrite E0. reflexivity. }
      rewrite (HC _ (AX nd0) ys J4), (HC _ nd0 ys' J2). cbn [map]. rewrite !app_nil_r. rewrite (set_vals Hus). split; [reflexivity|apply (set_valid HDE Hus); exact J3].
Qed.
Theorem smooth_good j args : ok args -> smooth_run j true (vals args) -> goodr j true args /\ forall rs, jeval j true args = Some rs -> plain_run j true (vals args) = Some (vals rs) /\ ok rs.
Proof. intros HV HS. apply (@link_runs j (fun k _ => @link_all k) true args HV HS). Qed.
End PL.
(* dense mode *)
Section Dense.
Context (c2r : bool) (th : Z) (n : nat) (Hn : 0 < n).
Lemma dense_good j args : valid n (dfull n) args -> smooth_run j true (map (@aval R) args) -> regular c2r th j args /\
  forall rs, jrun (prim_reg c2r) (name_reg c2r) c2r false th j true args = Some rs -> plain_run j true (map (@aval R) args) = Some (map (@aval R) rs) /\ valid n (dfull n) rs.
Proof.
  apply (@smooth_good c2r th n (dfull n) (fun _ => I) (fun _ _ => True) (fun _ => True) (fun _ _ _ _ => True)).
  - apply (@both_prim c2r th n Hn (dfull n) (fun _ => I) (@keeps_full n) (keeps_dot_full Hn) (fun _ _ => True)). intros k a Ha _. apply dense_mixes. exact Ha.
  - apply (@both_custom c2r th n Hn (dfull n) (fun _ => I) (@keeps_full n) (fun _ => True)).
  - apply dense_ext.
  - intros j0 nc nk a _ HV. apply (@dense_scan c2r th n j0 nc nk a HV).
Qed.
Theorem smooth_regular j args : valid n (dfull n) args -> smooth_run j true (map (@aval R) args) -> regular c2r th j args.
Proof. intros HV HS. apply (@dense_good j args HV HS). Qed.
End Dense.
