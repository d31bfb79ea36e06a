(* CxPlain.v : CalcPlain.v for programs with complex arrays: the side conditions on the actual run (that complex values are paired) follow from data flow. *)
From Coq Require Import Reals Lra.
From Coquelicot Require Import Coquelicot.
From Verif Require Export CxMarks.
Set Implicit Arguments.
Open Scope nat_scope.

Section PL.
Context (c2r : bool) (th : Z) (n : nat) (D : arg R -> Prop) (HX : forall x, D (AX x)).
Context (cond : prim -> list (nd R) -> Prop) (condc : list (nd R) -> Prop) (sc : @jaxpr R prim -> nat -> nat -> list (nd R) -> Prop).
Notation vals := (map (@aval R)).
Definition mixm (k : prim) (a : list (arg R)) : Prop := cond k (vals a) /\ exists ms ms', mok ms a /\ mk_prim k ms = Some ms'.
Notation mixct := (fun a : list (arg R) => condc (vals a)). Notation gst := (fun (j : @jaxpr R prim) (nc nk : nat) (a : list (arg R)) => sc j nc nk (vals a)).
Context (Hp : forall key args outs, valid n D args -> als args <> [] -> eq_guard mixm key (prim_ops key) args -> eval_prim (prim_reg c2r) c2r key (prim_ops key) th args = Some outs -> prim_good n (prim_ops key) args outs /\ Forall D outs).
Context (Hcu : forall fs args outs, valid n D args -> als args <> [] -> custom_guard mixct fs args -> list_rule c2r fs th args = Some outs -> prim_good n fs args outs /\ Forall D outs).
Context (HDE : forall v u, ext_idx u v -> D v -> D (set_idx v u)).
Context (HGS : forall j nc nk args, sc j nc nk (vals args) -> valid n D args -> keeps_carry c2r th j nc nk args).
Notation smooth_eq := (smooth_eqP cond condc sc). Notation smooth_run := (smooth_runP cond condc sc).
Notation reg := (prim_reg c2r). Notation nreg := (name_reg c2r).
Notation step := (step_of reg nreg c2r false th).
Notation jeval := (jrun reg nreg c2r false th).
Notation instr_at := (instr_of reg nreg c2r false th).
Notation goodk := (good reg nreg c2r th (eq_guard mixm) (custom_guard mixct) (name_guard mixm) gst).
Notation goodr := (good_run reg nreg c2r th (eq_guard mixm) (custom_guard mixct) (name_guard mixm) gst).
Notation ok := (valid n D). Notation lenv := (lenv n D).
Notation minstr := (fun e : @eqn R prim => Instr (map mlit (ins_of e)) (outs_of e) (mk_of (kind_of e))).
Definition mlink (k : @opk R prim) : Prop := forall ms ms' args, mok ms args -> mk_of k ms = Some ms' -> ok args -> smooth_eq k (vals args) ->
  goodk k args /\ forall rs, step k args = Some rs -> plain_of k (vals args) = Some (vals rs) /\ ok rs.
Definition mlink_run (j : @jaxpr R prim) : Prop := forall closed ms ms' args, mokw ms args -> mk_run j closed ms = Some ms' -> ok args -> smooth_run j closed (vals args) ->
  goodr j closed args /\ forall rs, jeval j closed args = Some rs -> plain_run j closed (vals args) = Some (vals rs) /\ ok rs.
Lemma mlink_exec es : (forall e, In e es -> mlink (kind_of e)) -> forall M M1 E F, menv M E -> exec0 M (map minstr es) = Some M1 -> lenv E F -> gexec F (map (fun e => (pinstr_of e, smooth_eq (kind_of e))) es) ->
  gexec E (map (fun e => (instr_at e, goodk (kind_of e))) es) /\ forall E1, exec0 E (map instr_at es) = Some E1 -> exists F1, exec0 F (map (@pinstr_of R CRing_R prim) es) = Some F1 /\ lenv E1 F1.
Proof.
  induction es as [|e es IH]; intros HL M M1 E F HM HMx HE HG; cbn [map gexec exec0] in *.
  - split; [exact I|]. intros E1 [= <-]. eauto.
  - unfold exec0_1 at 1 in HMx. unfold exec0_1. cbn [instr_of pinstr_of i_in i_out i_step] in *. destruct (lenv_read HX (ins_of e) HE) as [R1 R2]. rewrite R1 in HG |- *.
    destruct (read0_many M (map mlit (ins_of e))) as [ms|] eqn:Rm; [|discriminate]. destruct (mk_of (kind_of e) ms) as [ms'|] eqn:Km; [|discriminate]. destruct (write0_many M (outs_of e) ms') as [M2|] eqn:Wm; [|discriminate].
    destruct (read0_many E (map (@plain_atom R) (ins_of e))) as [xs|] eqn:Er; cbn [option_map] in *; [|split; [exact I|discriminate]].
    pose proof (@menv_read M E (ins_of e) HM ms xs Rm Er) as Hms.
    destruct HG as [G1 G2]. destruct (HL e (or_introl eq_refl) ms ms' xs Hms Km (R2 xs eq_refl) G1) as [L1 L2]. destruct (step (kind_of e) xs) as [ys|] eqn:Es; [|split; [split; [exact L1|exact I]|discriminate]].
    destruct (L2 ys eq_refl) as [L3 L4]. rewrite L3 in G2 |- *. destruct (write0_many E (outs_of e) ys) as [E2|] eqn:Ew; [|split; [split; [exact L1|exact I]|discriminate]].
    destruct (@lenv_write n D (outs_of e) E F ys E2 HE L4 Ew) as (F2 & W1 & W2). rewrite W1 in G2 |- *.
    assert (HM2 : menv M2 E2) by exact (@menv_write (outs_of e) M E ms' ys M2 E2 HM (@mk_all c2r th (kind_of e) ms ms' xs ys Hms Km Es) Wm Ew).
    destruct (IH (fun e' He => HL e' (or_intror He)) M2 M1 E2 F2 HM2 HMx W2 G2) as [I1 I2]. split; [split; [exact L1|exact I1]|exact I2].
Qed.
Lemma mlink_runs j : (forall k, In k (subops j) -> mlink k) -> mlink_run j.
Proof.
  intros HL closed ms ms' args Hms Hmr Ha HS. rewrite good_run_eq, jrun_eq, plain_run_eq. rewrite smooth_run_eq in HS. rewrite mk_run_eq in Hmr. unfold runb, run0 in *. unfold init0 in *. cbn [code_of pcode_of c_consts c_ins c_eqns c_outs] in *.
  assert (HC : consts_of j closed = map (@AX R) (if closed then j_cs j else [])) by (unfold consts_of; destruct closed; reflexivity). rewrite HC. set (cs := if closed then j_cs j else []) in *.
  destruct (write0_many (fun _ => None) (j_cvs j) (if closed then map (fun _ => true) (j_cs j) else [])) as [M0|] eqn:A1m; [|discriminate]. destruct (write0_many M0 (j_ivs j) ms) as [M1|] eqn:A2m; [|discriminate]. destruct (exec0 M1 _) as [M2|] eqn:A3m; [|discriminate].
  destruct (write0_many (fun _ => None) (j_cvs j) (map (@AX R) cs)) as [Ec|] eqn:Wc; [|split; [exact I|discriminate]].
  assert (H0 : lenv (fun _ => None) (fun _ => None)) by (intros v; split; [reflexivity|discriminate]).
  assert (K0 : menv M0 Ec) by (refine (@menv_write _ _ _ _ _ _ _ _ (mokw_AX _ cs) A1m Wc); intros v a H; discriminate).
  destruct (@lenv_write n D _ _ _ _ _ H0 (ok_plain n D HX cs) Wc) as (Fc & A1 & A2). rewrite avals_AX in A1. rewrite A1 in HS |- *.
  destruct (write0_many Ec (j_ivs j) args) as [E0|] eqn:Wi; [|split; [exact I|discriminate]]. destruct (@lenv_write n D _ _ _ _ _ A2 Ha Wi) as (F0 & B1 & B2). rewrite B1 in HS |- *.
  assert (K1 : menv M1 E0) by exact (@menv_write _ _ _ _ _ _ _ K0 Hms A2m Wi).
  destruct (@mlink_exec (j_es j)) with (M := M1) (M1 := M2) (E := E0) (F := F0) as [C1 C2]; auto.
  { intros e He. apply HL. unfold subops. apply in_map_iff. exists e. split; auto. }
  split; [exact C1|]. intros rs HR. destruct (exec0 E0 (map instr_at (j_es j))) as [E1|] eqn:X; [|discriminate]. destruct (C2 E1 eq_refl) as (F1 & D1 & D2). rewrite D1. destruct (lenv_read HX (j_os j) D2) as [R1 R2]. rewrite HR in R1. split; [exact R1|apply R2; exact HR].
Qed.
Lemma mlink_all k : mlink k.
Proof.
  apply (@opk_all R prim mlink); clear k.
  - intros key fs ms ms' args Hms Hmk HV (-> & H1 & H2 & H3). assert (HG : eq_guard mixm key (prim_ops key) args) by (split; [reflexivity|]; split; [exact H1|]; intros _; split; [exact H2|split; [exact H3|exists ms, ms'; auto]]). split; [exact HG|].
    intros rs H. rewrite step_if in H. change (plain_of (KPrim key (prim_ops key)) (vals args)) with (Some (map (fun f => o_fwd f (vals args)) (prim_ops key))) in *.
    apply (@ops_link th n D HX (prim_ops key) (eval_prim reg c2r key (prim_ops key)) args); [|exact H]. intros outs Ep Ho. apply (@Hp key args outs HV (plain_als _ Ep) HG Ho).
  - intros fs ms ms' args Hms Hmk HV [HC HS]. assert (HG : custom_guard mixct fs args) by (intros f Hf; destruct (HS f Hf) as (A & B & C); split; [exact A|]; intros _; auto). split; [exact HG|].
    intros rs H. rewrite step_if in H. change (plain_of (KCustom fs) (vals args)) with (Some (map (fun f => o_fwd f (vals args)) fs)) in *.
    apply (@ops_link th n D HX fs (list_rule c2r fs) args); [|exact H]. intros outs Ep Ho. apply (@Hcu fs args outs HV (plain_als _ Ep) HG Ho).
  - intros name j IH ms ms' args Hms Hmk HV HS. change (smooth_eq (KPjit name j) (vals args)) with (match name_prim name with Some key => (forall ys, length ys = length (vals args) -> plain_run j true ys = Some (map (fun f => o_fwd f ys) (prim_ops key))) /\ applies key (vals args) /\ diff_at key (vals args) /\ cond key (vals args) | None => smooth_run j true (vals args) end) in HS.
    change (mk_of (KPjit name j) ms) with (match name_prim name with Some key => mk_prim key ms | None => mk_run j true ms end) in Hmk.
    rewrite good_pjit, pjit_plain. destruct (name_prim name) as [key|] eqn:Ek.
    + destruct HS as (H0 & H1 & H2 & H3). destruct (@name_regs c2r name key Ek) as (rl & E1 & E2). rewrite map_length in H0. assert (HG : eq_guard mixm key (prim_ops key) args) by (split; [reflexivity|]; split; [exact H1|]; intros _; split; [exact H2|split; [exact H3|exists ms, ms'; auto]]).
      rewrite E1. split; [exists key; auto|]. intros rs H. rewrite step_if, pjit_plain, E1 in H. rewrite H0 in * by apply map_length.
      apply (@ops_link th n D HX (prim_ops key) rl args); [|exact H]. intros outs Ep Ho. apply (@Hp key args outs HV (plain_als _ Ep) HG). unfold eval_prim. rewrite E2. exact Ho.
    + assert (E1 : nreg name = None) by (unfold name_reg; rewrite Ek; reflexivity). rewrite E1. destruct (@mlink_runs j IH true ms ms' args (proj2 Hms) Hmk HV HS) as [L1 L2]. split; [exact L1|]. intros rs H. apply L2. rewrite step_if, pjit_plain, E1 in H.
      destruct (forallb isplain args) eqn:Ep; [|exact H]. rewrite <- (jrun_plain reg nreg c2r th), <- (plain_map _ Ep) in H. exact H.
  - intros nc nk T rv j IH ms ms' args Hms Hmk HV (S0 & S1 & S2 & S3). pose proof (@mlink_runs j IH) as HR.
    change (mk_of (KScan nc nk T rv j) ms) with (match mfix (fun c => mk_run j false (firstn nc ms ++ c ++ map (fun _ => true) (skipn (nc + nk) ms))) nk (S nk) (firstn nk (skipn nc ms)) with
      None => None | Some (c, r) => Some (c ++ map (fun _ => false) (skipn nk r)) end) in Hmk.
    destruct (mfix _ nk (S nk) _) as [[cm rm]|] eqn:Ef; [|discriminate]. destruct (mfix_spec _ _ _ _ Ef) as (Fm1 & Fm2 & Fm3 & Fm4). destruct (carry_marks nc nk Hms) as [C1 C2]. rewrite C1 in Fm3.
    assert (Hm0 : mokw cm (s_carry nc nk args)) by (intros i Hi; apply C2, Fm4, Hi). pose proof (@minv_start nc nk args cm Fm3 Hm0) as Hminv.
    assert (Hout : forall l r, jeval j false l = Some r -> length r = nk).
    { intros l r Hr. rewrite jrun_eq in Hr. unfold runb, run0 in Hr. destruct (init0 _ _ _) as [E|]; [|discriminate]. destruct (exec0 _ _) as [E1|]; [|discriminate]. cbn [code_of c_outs] in Hr. rewrite <- S1. clear -Hr. revert r Hr. generalize (j_os j). induction l as [|a l IH]; intros r Hr; cbn [map read0_many] in Hr; [injection Hr as <-; reflexivity|].
      destruct (read0 E1 _); [|discriminate]. destruct (read0_many E1 _) as [ys|]; [|discriminate]. injection Hr as <-. cbn. f_equal. apply IH. reflexivity. }
    assert (HLp : forall J, kept reg nreg c2r th j nc nk args J -> forall ts c, ok c -> minv args cm c -> J c -> gloop (piter j nc nk (vals args)) (fun c t => smooth_run j false (firstn nc (vals args) ++ c ++ map (fun x => row x t) (skipn (nc + nk) (vals args)))) ts (vals c) ->
      gloop (siter (jeval j false) nc nk args) (fun c t => goodr j false (s_cons nc args ++ c ++ map (fun x => AX (row (aval x) t)) (s_inp nc nk args))) ts c /\
      forall c' ys, loop (siter (jeval j false) nc nk args) ts c = Some (c', ys) -> (exists ys', loop (piter j nc nk (vals args)) ts (vals c) = Some (vals c', ys') /\ forall y, In y ys' -> y = []) /\ ok c' /\ forall y, In y ys -> y = []).
    { intros J HJ. induction ts as [|t ts IHt]; intros c Hc Hmc HJc HG; cbn [gloop loop] in *.
      - split; [exact I|]. intros c' ys [= <- <-]. split; [exists []; split; [reflexivity|intros y []]|]. split; [exact Hc|intros y []].
      - destruct HG as [G1 G2]. set (al := s_cons nc args ++ c ++ map (fun x => AX (row (aval x) t)) (s_inp nc nk args)).
        assert (Eal : vals al = firstn nc (vals args) ++ vals c ++ map (fun x => row x t) (skipn (nc + nk) (vals args))).
        { unfold al, s_cons, s_inp. rewrite !map_app, firstn_map, skipn_map, !map_map. reflexivity. }
        assert (Hal : ok al). { unfold al. apply ok_app. split; [apply ok_firstn; exact HV|]. apply ok_app. split; [exact Hc|]. rewrite <- map_map with (f := fun x => row (aval x) t) (g := @AX R). apply (ok_plain n D HX). }
        rewrite <- Eal in G1. destruct (HR false _ rm al (@minv_args nc nk ms args cm c t Hms Hmc) Fm1 Hal G1) as [R1 R2]. unfold piter in G2 at 1. unfold piter at 1. rewrite <- Eal in G2 |- *.
        destruct (siter (jeval j false) nc nk args c t) as [[c1 y1]|] eqn:Es; [|split; [split; [exact R1|exact I]|discriminate]].
        destruct (HJ c t c1 y1 HJc Es) as (r & us & Er & Ey & Eu & Ec & HJ1). fold al in Er. destruct (R2 r Er) as [R3 R4]. rewrite R3 in G2 |- *.
        assert (F1 : firstn nk (vals r) = vals c1) by (rewrite Ec, (set_vals Eu); apply firstn_map). rewrite F1 in G2 |- *.
        assert (E0 : skipn nk r = []) by (apply skipn_all2; rewrite (Hout _ _ Er); lia). assert (F2 : skipn nk (vals r) = []) by (rewrite skipn_map, E0; reflexivity). rewrite F2.
        assert (Hc1 : ok c1) by (rewrite Ec; apply (set_valid HDE Eu); apply ok_firstn; exact R4).
        assert (Hmc1 : minv args cm c1) by exact (@siter_marked c2r th j nc nk ms args cm rm (@mk_run_ok c2r th j) Hms Fm1 Fm2 Fm3 Hm0 c t c1 y1 Hmc Es).
        destruct (IHt c1 Hc1 Hmc1 HJ1 G2) as [I1 I2]. split; [split; [exact R1|exact I1]|].
        intros c' ys Hl. destruct (loop _ ts c1) as [[c2 ys2]|] eqn:El; [|discriminate]. injection Hl as <- <-. destruct (I2 c2 ys2 eq_refl) as ((ys' & J1 & J2) & J3 & J4). rewrite J1. rewrite Ey, E0.
        split; [eexists; split; [reflexivity|]; intros y [<-|Hy]; [reflexivity|apply J2, Hy]|]. split; [exact J3|]. intros y [<-|Hy]; [reflexivity|apply J4, Hy]. }
    assert (Hcar : ok (s_carry nc nk args)) by (unfold s_carry; apply ok_firstn, ok_skipn; exact HV). assert (Ecar : vals (s_carry nc nk args) = firstn nk (skipn nc (vals args))) by (unfold s_carry; rewrite <- firstn_map, <- skipn_map; reflexivity).
    rewrite <- Ecar in S3.
    assert (HLq : admitted (jeval j false) nc nk args -> gloop (siter (jeval j false) nc nk args) (fun c t => goodr j false (s_cons nc args ++ c ++ map (fun x => AX (row (aval x) t)) (s_inp nc nk args))) (order T rv) (s_carry nc nk args) /\
      forall c' ys, loop (siter (jeval j false) nc nk args) (order T rv) (s_carry nc nk args) = Some (c', ys) -> (exists ys', loop (piter j nc nk (vals args)) (order T rv) (vals (s_carry nc nk args)) = Some (vals c', ys') /\ forall y, In y ys' -> y = []) /\ ok c' /\ forall y, In y ys -> y = []).
    { intros HA. destruct (@admit_kept prim reg nreg c2r th gst n D (fun j0 nc0 nk0 a0 HV0 s0 => @HGS j0 nc0 nk0 a0 s0 HV0) j nc nk args HV S0 HA) as (J & J1 & J2). apply (HLp J J2); auto. }
    split.
    + change (scan_good (sc j nc nk (vals args)) (jeval j false) (goodr j false) nc nk T rv args). split; [exact S0|]. split; [|intros HA; destruct (HLq HA) as [L1 L2]; split; [|exact L1]].
      * intros v Hv. apply (S2 (aval v)). rewrite skipn_map. apply in_map. exact Hv.
      * intros c ys Hl. destruct (L2 c ys Hl) as (_ & _ & E). exists []. intros y Hy. rewrite (E y Hy). split; [reflexivity|intros v []].
    + intros rs H. destruct (@scan_any prim reg nreg c2r th nc nk T rv j args rs H) as (c & ys & us & K1 & -> & Hus & _ & HA & K4). destruct (HLq HA) as [L1 L2].
      destruct (L2 c ys K1) as ((ys' & J1 & J2) & J3 & J4). rewrite scan_plain. destruct (Nat.eqb_spec T 0); [congruence|]. rewrite <- Ecar, J1.
      assert (HC : forall X (d : X) (l : list (list X)), (forall y, In y l -> y = []) -> cols d (unorder rv l) = []).
      { intros X d l Hl. unfold cols. assert (E0 : hd [] (unorder rv l) = []). { destruct (unorder rv l) as [|y m] eqn:E; [reflexivity|]. cbn. apply Hl. apply (proj1 (unorder_In rv l y)). rewrite E. left. reflexivity. } rewrite E0. reflexivity. }
      rewrite (HC _ (AX nd0) ys J4), (HC _ nd0 ys' J2). cbn [map]. rewrite !app_nil_r. rewrite (set_vals Hus). split; [reflexivity|apply (set_valid HDE Hus); exact J3].
Qed.
Theorem marked_good j ms ms' args : mokw ms args -> mk_run j true ms = Some ms' -> ok args -> smooth_run j true (vals args) -> goodr j true args /\ forall rs, jeval j true args = Some rs -> plain_run j true (vals args) = Some (vals rs) /\ ok rs.
Proof. intros H1 H2 HV HS. apply (@mlink_runs j (fun k _ => @mlink_all k) true ms ms' args H1 H2 HV HS). Qed.
End PL.
