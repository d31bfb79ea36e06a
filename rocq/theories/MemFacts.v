(* MemFacts.v : compute_memory returns the peak of the live bytes.  Proofs only. *)
From Verif Require Export Memory.
Set Implicit Arguments.
Local Open Scope Z_scope.

Lemma bytes_app l m : bytes (l ++ m) = bytes l + bytes m.
Proof. induction l as [|[v b] l IH]; cbn; [reflexivity|]. rewrite IH. lia. Qed.
Lemma bytes_perm l m : Permutation l m -> bytes l = bytes m.
Proof. induction 1 as [|[v b] l m _ IH|[v b] [w c] l|l m k _ IH1 _ IH2]; cbn; lia. Qed.
Lemma bytes_split (P Q : var * Z -> bool) l : (forall d, In d l -> Q d = true -> P d = true) ->
  bytes (filter P l) = bytes (filter Q l) + bytes (filter (fun d => P d && negb (Q d)) l).
Proof.
  induction l as [|[v b] l IH]; cbn; intros H; [reflexivity|]. specialize (IH (fun d Hd => H d (or_intror Hd))).
  pose proof (H (v, b) (or_introl eq_refl)) as H0. destruct (P (v, b)), (Q (v, b)); cbn in *; lia || (specialize (H0 eq_refl); discriminate).
Qed.
Lemma NoDup_app_remove_r {X} (l m : list X) : NoDup (l ++ m) -> NoDup l.
Proof. induction l as [|x l IH]; cbn; intros H; constructor; inversion H as [|? ? Hn Hd]; subst; [|auto]. intros Hi. apply Hn. apply in_or_app. auto. Qed.
Lemma mem_var_In v l : mem_var v l = true <-> In v l.
Proof. unfold mem_var. rewrite existsb_exists. split; [intros (x & Hx & E); apply Nat.eqb_eq in E; subst; auto|intros H; exists v; split; [auto|apply Nat.eqb_refl]]. Qed.
Lemma mem_var_occ v l : mem_var v l = (0 <? occ v l).
Proof. apply existsb_occ. Qed.

Section P.
Context (p : mprog).
Local Notation outs := (vars_of (m_outs p)).
Local Notation base := (fun v => occ v (map fst (m_ins p) ++ map fst (m_consts p))).
Local Notation rds := (flat_map (fun e : meqn => vars_of (e_ins e))).

Lemma base_nonneg v : 0 <= base v.
Proof. apply occ_nonneg. Qed.
Lemma reads_rds es : reads (map m_instr es) = rds es.
Proof. unfold reads. induction es as [|e es IH]; cbn; [reflexivity|]. rewrite IH. reflexivity. Qed.
(* the counter is positive exactly for the needed variables *)
Lemma cnt_needed (s : @st Z) es v : cnt_ok outs base s (rds es ++ outs) -> (0 <? cnt s v) = needed p es v /\ 0 <= cnt s v.
Proof.
  intros H. specialize (H v). unfold needed. rewrite !mem_var_occ. rewrite occ_app in H. rewrite occ_app in H.
  pose proof (occ_nonneg v outs). pose proof (occ_nonneg v (rds es)). pose proof (occ_nonneg v (map fst (m_ins p))). pose proof (occ_nonneg v (map fst (m_consts p))).
  destruct (Z.ltb_spec 0 (occ v outs)) as [Ho|Ho].
  - rewrite orb_true_r. cbn [orb]. split; [apply Z.ltb_lt|]; lia.
  - split; [|lia]. rewrite H. destruct (Z.ltb_spec 0 (occ v (map fst (m_consts p)))), (Z.ltb_spec 0 (occ v (map fst (m_ins p)))), (Z.ltb_spec 0 (occ v (rds es))); cbn [orb];
      (apply Z.ltb_lt || apply Z.ltb_ge); lia.
Qed.

Lemma mwrite_many_st l : forall m, write_many (mst_s m) (map fst l) (map snd l) = Some (mst_s (mwrite_many m l)).
Proof. induction l as [|[v x] l IH]; intros m; cbn; [reflexivity|]. rewrite <- IH. reflexivity. Qed.
Lemma write_cnt (s : @st Z) v x : cnt (write s v x) = cnt s.
Proof. unfold write. destruct (_ <? _); reflexivity. Qed.
Lemma mwrite_many_mem l : forall m, mst_mem (mwrite_many m l) = mst_mem m + bytes (filter (fun d => 0 <? cnt (mst_s m) (fst d)) l) /\
  cnt (mst_s (mwrite_many m l)) = cnt (mst_s m).
Proof.
  induction l as [|[v x] l IH]; intros m; cbn; [split; [lia|reflexivity]|]. destruct (IH (mwrite m v x)) as [H1 H2].
  rewrite H1, H2. cbn [mwrite mst_s mst_mem]. rewrite write_cnt. split; [|reflexivity].
  destruct (0 <? cnt (mst_s m) v); cbn; lia.
Qed.


(* the variables read, with the values read *)
Fixpoint zipv (ins : list (atom Z)) (vals : list Z) : list (var * Z) :=
  match ins, vals with
  | AVar v :: ins', x :: vals' => (v, x) :: zipv ins' vals'
  | ALit _ :: ins', _ :: vals' => zipv ins' vals'
  | _, _ => []
  end.
Lemma mfree_spec s ins : forall mem vals, mfree s mem ins vals = mem - bytes (filter (fun d => cnt s (fst d) =? 0) (zipv ins vals)).
Proof.
  induction ins as [|a ins IH]; intros mem [|x vals]; cbn; try lia; destruct a as [v|y]; cbn; try lia.
  - rewrite IH. destruct (cnt s v =? 0); cbn; lia.
  - apply IH.
Qed.
Definition dom (E : @env0 Z) (D : list (var * Z)) : Prop := forall v x, E v = Some x <-> In (v, x) D.
Lemma zipv_fst E ins : forall vals, read0_many E ins = Some vals -> map fst (zipv ins vals) = vars_of ins /\
  forall v x, In (v, x) (zipv ins vals) -> E v = Some x.
Proof.
  induction ins as [|a ins IH]; intros vals H; cbn in H.
  - injection H as <-. cbn. split; [reflexivity|tauto].
  - destruct (read0 E a) as [x|] eqn:Ea; [|discriminate]. destruct (read0_many E ins) as [xs|] eqn:Er; [|discriminate]. injection H as <-.
    destruct (IH xs eq_refl) as [H1 H2]. destruct a as [v|y]; cbn in *.
    + rewrite H1. split; [reflexivity|]. intros w z [Hw|Hw]; [injection Hw as <- <-; exact Ea|auto].
    + split; auto.
Qed.
Lemma write0_dom l : forall E D E1, dom E D -> NoDup (map fst (D ++ l)) -> write0_many E (map fst l) (map snd l) = Some E1 -> dom E1 (D ++ l).
Proof.
  induction l as [|[v x] l IH]; intros E D E1 HD HN H; cbn in H.
  - injection H as <-. rewrite app_nil_r. exact HD.
  - assert (E' : D ++ (v, x) :: l = (D ++ [(v, x)]) ++ l) by (rewrite <- app_assoc; reflexivity). rewrite E' in *. eapply IH; [|exact HN|exact H].
    intros w y. unfold vset. rewrite in_app_iff. cbn. rewrite map_app in HN. apply NoDup_app_remove_r in HN. rewrite map_app in HN. cbn in HN.
    apply NoDup_remove_2 in HN. rewrite app_nil_r in HN. destruct (Nat.eqb_spec w v) as [Ew|Hne].
    + subst w. split; [intros Hy; injection Hy as <-; auto|]. intros [Hy|[Hy|[]]]; [|injection Hy as <-; reflexivity].
      exfalso. apply HN. apply (in_map fst) in Hy. exact Hy.
    + rewrite (HD w y). split; [auto|]. intros [Hy|[Hy|[]]]; [auto|congruence].
Qed.

Lemma NoDup_map_fst (l : list (var * Z)) : NoDup (map fst l) -> NoDup l.
Proof. apply NoDup_map_inv. Qed.
Lemma filter_map_fst (P : var -> bool) (l : list (var * Z)) : map fst (filter (fun d => P (fst d)) l) = filter P (map fst l).
Proof. induction l as [|[v b] l IH]; cbn; [reflexivity|]. destruct (P v); cbn; rewrite IH; reflexivity. Qed.

(* freeing after e turns the bytes needed before into the bytes needed after *)
Lemma free_balance E D (e : meqn) es2 vals : dom E D -> NoDup (map fst D) ->
  NoDup (filter (fun v => negb (needed p es2 v)) (vars_of (e_ins e))) ->
  read0_many E (e_ins e) = Some vals ->
  bytes (filter (fun d => needed p (e :: es2) (fst d)) D) - bytes (filter (fun d => negb (needed p es2 (fst d))) (zipv (e_ins e) vals))
  = bytes (filter (fun d => needed p es2 (fst d)) D).
Proof.
  intros HD HN HO HR. destruct (zipv_fst _ _ HR) as [Hf He].
  assert (Hnd : forall v, needed p (e :: es2) v = needed p es2 v || mem_var v (vars_of (e_ins e))).
  { intros v. unfold needed. cbn [flat_map]. unfold mem_var. rewrite existsb_app.
    rewrite <- !orb_assoc. do 3 f_equal. apply orb_comm. }
  rewrite (bytes_split (fun d => needed p (e :: es2) (fst d)) (fun d => needed p es2 (fst d)) D)
    by (intros d _ Hd; rewrite Hnd, Hd; reflexivity).
  enough (HP : Permutation (filter (fun d => needed p (e :: es2) (fst d) && negb (needed p es2 (fst d))) D)
               (filter (fun d => negb (needed p es2 (fst d))) (zipv (e_ins e) vals))).
  { rewrite (bytes_perm HP). lia. }
  apply NoDup_Permutation.
  - apply NoDup_filter. apply NoDup_map_fst. exact HN.
  - apply NoDup_map_fst. rewrite filter_map_fst with (P := fun v => negb (needed p es2 v)), Hf. exact HO.
  - intros [v b]. rewrite !filter_In. cbn [fst]. rewrite Hnd. split.
    + intros (Hin & Hc). destruct (needed p es2 v); cbn [orb negb] in Hc; [discriminate|]. rewrite andb_true_r in Hc. split; [|reflexivity].
      apply mem_var_In in Hc. rewrite <- Hf in Hc. apply in_map_iff in Hc. destruct Hc as ([w x] & Hw & Hx). cbn in Hw. subst w.
      pose proof (He v x Hx) as Hv. apply HD in Hin. rewrite Hin in Hv. injection Hv as <-. exact Hx.
    + intros (Hin & Hc). pose proof (He v b Hin) as Hv. apply HD in Hv. split; [exact Hv|]. rewrite Hc, andb_true_r.
      apply orb_true_iff. right. apply mem_var_In. rewrite <- Hf. apply (in_map fst) in Hin. exact Hin.
Qed.

(* one step *)
Lemma mloop_ok : forall es2 es1 m peak subs m' r E,
  ssa p -> last_reads_once p -> m_eqns p = es1 ++ es2 ->
  let D := m_consts p ++ m_ins p ++ flat_map e_outs es1 in
  cnt_ok outs base (mst_s m) (rds es2 ++ outs) -> env_sub (mst_s m) E -> env_live (mst_s m) -> dom E D ->
  mst_mem m = bytes (filter (fun d => needed p es2 (fst d)) D) ->
  mloop m peak es2 subs = Some (m', r) ->
  peak <= r /\
  (forall a e b, es2 = a ++ e :: b -> exists sp, nth (length a) subs None = Some sp /\ live_bytes p (es1 ++ a) e b + sp <= r) /\
  (r = peak \/ exists a e b sp, es2 = a ++ e :: b /\ nth (length a) subs None = Some sp /\ live_bytes p (es1 ++ a) e b + sp = r).
Proof.
  induction es2 as [|e es2 IH]; intros es1 m peak subs m' r E Hssa Hlast He D HC HE HL HD Hm H.
  - cbn in H. injection H as <- <-. split; [lia|]. split; [intros a e b Hab; destruct a; discriminate|left; reflexivity].
  - destruct subs as [|sub subs]; [discriminate|]. cbn [mloop] in H.
    cbn [flat_map] in HC. rewrite <- app_assoc in HC.
    pose proof (@read_many_ok Z outs base base_nonneg E (e_ins e) (mst_s m) _ HC HE HL) as HR.
    destruct (read_many (mst_s m) (e_ins e)) as [[vals s1]|]; [|discriminate]. destruct HR as (HR & HC1 & HE1 & HL1).
    destruct sub as [sp|]; [|discriminate].
    set (m1 := Mst s1 (mst_mem m)) in *. set (m2 := mwrite_many m1 (e_outs e)) in *.
    pose proof (mwrite_many_st (e_outs e) m1) as HW. fold m2 in HW. cbn [m1 mst_s] in HW.
    pose proof (@write_many_ok Z outs base (rds es2 ++ outs) (map fst (e_outs e)) s1 E (map snd (e_outs e)) HC1 HE1 HL1) as HW2.
    rewrite HW in HW2. destruct HW2 as (E1 & HW0 & HC2 & HE2 & HL2).
    destruct (mwrite_many_mem (e_outs e) m1) as [Hmem Hcnt]. fold m2 in Hmem, Hcnt. cbn [m1 mst_s mst_mem] in Hmem, Hcnt.
    assert (Hfil : filter (fun d : var * Z => 0 <? cnt s1 (fst d)) (e_outs e) = filter (fun d => needed p es2 (fst d)) (e_outs e)).
    { apply filter_ext. intros d. apply (@cnt_needed _ es2 (fst d) HC1). }
    rewrite Hfil, Hm in Hmem.
    assert (Hlive : mst_mem m2 = live_bytes p es1 e es2) by (rewrite Hmem; reflexivity).
    assert (HN : NoDup (map fst (D ++ e_outs e))).
    { assert (Ed : m_consts p ++ m_ins p ++ flat_map e_outs (m_eqns p) = (D ++ e_outs e) ++ flat_map e_outs es2).
      { rewrite He. unfold D. rewrite flat_map_app. cbn [flat_map]. rewrite <- !app_assoc. reflexivity. }
      unfold ssa in Hssa. rewrite Ed, map_app in Hssa. apply NoDup_app_remove_r in Hssa. exact Hssa. }
    assert (HND : NoDup (map fst D)). { rewrite map_app in HN. apply NoDup_app_remove_r in HN. exact HN. }
    assert (Hz : filter (fun d : var * Z => cnt (mst_s m2) (fst d) =? 0) (zipv (e_ins e) vals) = filter (fun d => negb (needed p es2 (fst d))) (zipv (e_ins e) vals)).
    { apply filter_ext. intros d. destruct (@cnt_needed _ es2 (fst d) HC2) as [Hn Hp]. rewrite <- Hn.
      destruct (Z.ltb_spec 0 (cnt (mst_s m2) (fst d))), (Z.eqb_spec (cnt (mst_s m2) (fst d)) 0); cbn; try reflexivity; lia. }
    rewrite mfree_spec, Hz in H.
    set (peak1 := if peak <? mst_mem m2 + sp then mst_mem m2 + sp else peak) in *.
    assert (Hpk : peak <= peak1 /\ mst_mem m2 + sp <= peak1 /\ (peak1 = peak \/ peak1 = mst_mem m2 + sp)).
    { unfold peak1. destruct (Z.ltb_spec peak (mst_mem m2 + sp)); lia. }
    clearbody peak1. rewrite Hlive in Hpk. destruct Hpk as (Hp1 & Hp2 & Hp3).
    assert (HD' : m_consts p ++ m_ins p ++ flat_map e_outs (es1 ++ [e]) = D ++ e_outs e).
    { unfold D. rewrite flat_map_app. cbn [flat_map]. rewrite app_nil_r, <- !app_assoc. reflexivity. }
    set (m3 := Mst (mst_s m2) (mst_mem m2 - bytes (filter (fun d : var * Z => negb (needed p es2 (fst d))) (zipv (e_ins e) vals)))) in *.
    specialize (IH (es1 ++ [e]) m3 peak1 subs m' r E1 Hssa Hlast ltac:(rewrite <- app_assoc; exact He)). cbv zeta in IH. rewrite HD' in IH.
    destruct IH as (I1 & I2 & I3); cbn [m3 mst_s mst_mem]; auto.
    + eapply write0_dom; eauto.
    + rewrite Hmem. rewrite filter_app, bytes_app.
      pose proof (@free_balance E D e es2 vals HD HND (Hlast es1 e es2 He) HR) as HB. unfold meqn in *. lia.
    + split; [lia|]. split.
      * intros a e' b Hab. destruct a as [|a0 a]; cbn in Hab; injection Hab as -> ->.
        -- exists sp. split; [reflexivity|]. rewrite app_nil_r. lia.
        -- destruct (I2 a e' b eq_refl) as (sp' & Hs' & Hl'). exists sp'. split; [exact Hs'|]. rewrite <- app_assoc in Hl'. exact Hl'.
      * destruct I3 as [->|(a & e' & b & sp' & -> & Hs' & Hl')].
        -- destruct Hp3 as [E0 | E0]; rewrite E0; [left; reflexivity|]. right. exists [], e, es2, sp. rewrite app_nil_r. auto.
        -- right. exists (e :: a), e', b, sp'. rewrite <- app_assoc in Hl'. auto.
Qed.

(* the sub-jaxpr of every equation *)
Definition sub_peak (e : meqn) : option Z := match e_sub e with None => Some 0 | Some q => jaxpr_memory true q end.
Theorem jaxpr_memory_spec ret r : ssa p -> last_reads_once p -> few_reads (m_code p) -> jaxpr_memory ret p = Some r ->
  (forall e, In e (m_eqns p) -> sub_peak e <> None) /\
  is_peak p (fun es1 e es2 => live_bytes p es1 e es2 + match sub_peak e with Some s => s | None => 0 end) r.
Proof.
  intros Hssa Hlast Hfew H.
  assert (H' : exists m', mloop (minit p) 0 (m_eqns p) (map sub_peak (m_eqns p)) = Some (m', r)).
  { destruct p as [cs is es os]. cbn [jaxpr_memory m_eqns] in *. unfold sub_peak, e_sub.
    destruct (mloop _ _ _ _) as [[m' r']|]; [|discriminate]. destruct ret; [destruct (read_many _ _)|]; inversion H; eauto. }
  clear H. destruct H' as (m' & H).
  (* the initial state *)
  pose proof (@init_ok Z (m_code p) (map snd (m_consts p)) (map snd (m_ins p)) Hfew) as HI. cbv zeta in HI. unfold init in HI.
  cbn [m_code c_consts c_ins c_outs c_eqns] in HI.
  set (m0 := Mst (St (fun _ => None) (counts (m_code p))) 0) in *.
  pose proof (mwrite_many_st (m_consts p) m0) as W1. change (mst_s m0) with (@St Z (fun _ => None) (counts (m_code p))) in W1. cbn [m_code] in W1. rewrite W1 in HI.
  pose proof (mwrite_many_st (m_ins p) (mwrite_many m0 (m_consts p))) as W2. rewrite W2 in HI.
  change (mwrite_many (mwrite_many m0 (m_consts p)) (m_ins p)) with (minit p) in HI.
  destruct HI as (E & HI0 & HC & HE & HL). rewrite reads_rds in HC.
  assert (Hc0 : forall v, In v (map fst (m_consts p ++ m_ins p)) -> needed p (m_eqns p) v = true).
  { intros v Hv. rewrite map_app, in_app_iff in Hv. unfold needed. rewrite !orb_true_iff, !mem_var_In. tauto. }
  destruct (mwrite_many_mem (m_consts p) m0) as [M1 C1]. destruct (mwrite_many_mem (m_ins p) (mwrite_many m0 (m_consts p))) as [M2 C2].
  change (mwrite_many (mwrite_many m0 (m_consts p)) (m_ins p)) with (minit p) in M2, C2. rewrite C1 in C2.
  rewrite C1, M1 in M2. change (mst_mem m0) with 0 in M2. rewrite <- C2 in M2.
  assert (Hfi : forall l, filter (fun d : var * Z => 0 <? cnt (mst_s (minit p)) (fst d)) l = filter (fun d => needed p (m_eqns p) (fst d)) l).
  { intros l. apply filter_ext. intros d. apply (@cnt_needed _ (m_eqns p) (fst d) HC). }
  rewrite !Hfi in M2.
  assert (HD : dom E (m_consts p ++ m_ins p)).
  { unfold init0 in HI0. cbn [m_code c_consts c_ins] in HI0.
    destruct (write0_many (fun _ => None) (map fst (m_consts p)) (map snd (m_consts p))) as [Ec|] eqn:Ec'; [|discriminate].
    assert (Hs : NoDup (map fst (m_consts p ++ m_ins p))).
    { unfold ssa in Hssa. rewrite app_assoc, map_app in Hssa. apply NoDup_app_remove_r in Hssa. exact Hssa. }
    eapply write0_dom; [|exact Hs|exact HI0]. change (m_consts p) with ([] ++ m_consts p). eapply write0_dom; [|cbn|exact Ec'].
    - intros v x. split; [discriminate|intros []].
    - rewrite map_app in Hs. apply NoDup_app_remove_r in Hs. exact Hs. }
  assert (Q := @mloop_ok (m_eqns p) [] (minit p) 0 (map sub_peak (m_eqns p)) m' r E Hssa Hlast eq_refl). cbv zeta in Q. cbn [flat_map] in Q. rewrite app_nil_r in Q.
  destruct Q as (Q1 & Q2 & Q3); auto.
  { rewrite M2, filter_app, bytes_app. lia. }
  assert (Hn : forall a e b, m_eqns p = a ++ e :: b -> nth (length a) (map sub_peak (m_eqns p)) None = sub_peak e).
  { intros a e b ->. rewrite map_app. rewrite app_nth2 by (rewrite map_length; lia). rewrite map_length, Nat.sub_diag. reflexivity. }
  split.
  - intros e He Hs. apply in_split in He. destruct He as (a & b & He). destruct (Q2 a e b He) as (sp & Hsp & _). rewrite (Hn a e b He) in Hsp. congruence.
  - split; [lia|]. split.
    + intros a e b He. destruct (Q2 a e b He) as (sp & Hsp & Hl). rewrite (Hn a e b He) in Hsp. rewrite Hsp. exact Hl.
    + destruct Q3 as [->|(a & e & b & sp & He & Hsp & Hl)]; [auto|]. right. exists a, e, b. split; [exact He|].
      rewrite (Hn a e b He) in Hsp. rewrite Hsp. exact Hl.
Qed.

Lemma read0_scoped E D ins : dom E D -> (forall v, In v (vars_of ins) -> In v (map fst D)) -> read0_many E ins <> None.
Proof.
  intros HD. induction ins as [|a ins IH]; cbn; intros H; [discriminate|]. unfold vars_of in *. cbn in H.
  assert (IH' : read0_many E ins <> None) by (apply IH; intros v Hv; apply H; apply in_or_app; auto).
  destruct a as [v|x]; cbn in *; [|destruct (read0_many E ins); [discriminate|congruence]].
  assert (Hv : In v (map fst D)) by (apply H; auto). apply in_map_iff in Hv. destruct Hv as ([w b] & Hw & Hin). cbn in Hw. subst w.
  apply HD in Hin. rewrite Hin. destruct (read0_many E ins); [discriminate|congruence].
Qed.
Lemma mloop_total : forall es2 es1 m peak subs E,
  ssa p -> scoped p -> m_eqns p = es1 ++ es2 -> length subs = length es2 -> (forall s, In s subs -> s <> None) ->
  let D := m_consts p ++ m_ins p ++ flat_map e_outs es1 in
  cnt_ok outs base (mst_s m) (rds es2 ++ outs) -> env_sub (mst_s m) E -> env_live (mst_s m) -> dom E D ->
  mloop m peak es2 subs <> None.
Proof.
  induction es2 as [|e es2 IH]; intros es1 m peak subs E Hssa Hsc He Hsl Hs D HC HE HL HD; [discriminate|].
  destruct subs as [|sub subs]; [discriminate|]. cbn [mloop].
  cbn [flat_map] in HC. rewrite <- app_assoc in HC.
  pose proof (@read_many_ok Z outs base base_nonneg E (e_ins e) (mst_s m) _ HC HE HL) as HR.
  destruct (read_many (mst_s m) (e_ins e)) as [[vals s1]|].
  2:{ exfalso. eapply read0_scoped; [exact HD|exact (Hsc es1 e es2 He)|exact HR]. }
  destruct HR as (HR & HC1 & HE1 & HL1).
  destruct sub as [sp|]; [|exfalso; apply (Hs None); [now left|reflexivity]].
  set (m1 := Mst s1 (mst_mem m)) in *. set (m2 := mwrite_many m1 (e_outs e)) in *.
  pose proof (mwrite_many_st (e_outs e) m1) as HW. fold m2 in HW. cbn [m1 mst_s] in HW.
  pose proof (@write_many_ok Z outs base (rds es2 ++ outs) (map fst (e_outs e)) s1 E (map snd (e_outs e)) HC1 HE1 HL1) as HW2.
  rewrite HW in HW2. destruct HW2 as (E1 & HW0 & HC2 & HE2 & HL2).
  assert (HN : NoDup (map fst (D ++ e_outs e))).
  { assert (Ed : m_consts p ++ m_ins p ++ flat_map e_outs (m_eqns p) = (D ++ e_outs e) ++ flat_map e_outs es2).
    { rewrite He. unfold D. rewrite flat_map_app. cbn [flat_map]. rewrite <- !app_assoc. reflexivity. }
    unfold ssa in Hssa. rewrite Ed, map_app in Hssa. apply NoDup_app_remove_r in Hssa. exact Hssa. }
  assert (HD' : m_consts p ++ m_ins p ++ flat_map e_outs (es1 ++ [e]) = D ++ e_outs e).
  { unfold D. rewrite flat_map_app. cbn [flat_map]. rewrite app_nil_r, <- !app_assoc. reflexivity. }
  eapply IH with (es1 := es1 ++ [e]); eauto.
  - rewrite <- app_assoc. exact He.
  - intros s Hin. apply Hs. now right.
  - rewrite HD'. eapply write0_dom; eauto.
Qed.
Lemma minit_ok : few_reads (m_code p) -> ssa p -> exists E, cnt_ok outs base (mst_s (minit p)) (rds (m_eqns p) ++ outs) /\
  env_sub (mst_s (minit p)) E /\ env_live (mst_s (minit p)) /\ dom E (m_consts p ++ m_ins p).
Proof.
  intros Hfew Hssa.
  pose proof (@init_ok Z (m_code p) (map snd (m_consts p)) (map snd (m_ins p)) Hfew) as HI. cbv zeta in HI. unfold init in HI.
  cbn [m_code c_consts c_ins c_outs c_eqns] in HI.
  set (m0 := Mst (St (fun _ => None) (counts (m_code p))) 0) in *.
  pose proof (mwrite_many_st (m_consts p) m0) as W1. change (mst_s m0) with (@St Z (fun _ => None) (counts (m_code p))) in W1. cbn [m_code] in W1. rewrite W1 in HI.
  pose proof (mwrite_many_st (m_ins p) (mwrite_many m0 (m_consts p))) as W2. rewrite W2 in HI.
  change (mwrite_many (mwrite_many m0 (m_consts p)) (m_ins p)) with (minit p) in HI.
  destruct HI as (E & HI0 & HC & HE & HL). rewrite reads_rds in HC. exists E. split; [exact HC|]. split; [exact HE|]. split; [exact HL|].
  unfold init0 in HI0. cbn [m_code c_consts c_ins] in HI0.
  destruct (write0_many (fun _ => None) (map fst (m_consts p)) (map snd (m_consts p))) as [Ec|] eqn:Ec'; [|discriminate].
  assert (Hs : NoDup (map fst (m_consts p ++ m_ins p))).
  { unfold ssa in Hssa. rewrite app_assoc, map_app in Hssa. apply NoDup_app_remove_r in Hssa. exact Hssa. }
  eapply write0_dom; [|exact Hs|exact HI0]. change (m_consts p) with ([] ++ m_consts p). eapply write0_dom; [|cbn|exact Ec'].
  - intros v x. split; [discriminate|intros []].
  - rewrite map_app in Hs. apply NoDup_app_remove_r in Hs. exact Hs.
Qed.
Theorem compute_memory_total : ssa p -> scoped p -> few_reads (m_code p) -> straight_line p -> compute_memory p <> None.
Proof.
  intros Hssa Hsc Hfew Hst.
  assert (T : mloop (minit p) 0 (m_eqns p) (map sub_peak (m_eqns p)) <> None).
  { destruct (minit_ok Hfew Hssa) as (E & HC & HE & HL & HD).
    apply (@mloop_total (m_eqns p) [] (minit p) 0 (map sub_peak (m_eqns p)) E); auto.
    - apply map_length.
    - intros s Hs. apply in_map_iff in Hs. destruct Hs as (e & <- & He). unfold sub_peak. rewrite (Hst e He). discriminate.
    - cbn [flat_map]. rewrite app_nil_r. exact HD. }
  unfold compute_memory. destruct p as [cs is es os]. cbn [jaxpr_memory m_eqns] in *. unfold sub_peak, e_sub in T.
  destruct (mloop _ _ _ _) as [[m' r']|]; [discriminate|congruence].
Qed.
Theorem compute_memory_spec : ssa p -> scoped p -> last_reads_once p -> few_reads (m_code p) -> straight_line p ->
  exists r, compute_memory p = Some r /\ is_peak p (live_bytes p) r.
Proof.
  intros Hssa Hsc Hlast Hfew Hst. pose proof (compute_memory_total Hssa Hsc Hfew Hst) as HT.
  destruct (compute_memory p) as [r|] eqn:Er; [|congruence]. exists r. split; [reflexivity|].
  destruct (@jaxpr_memory_spec false r Hssa Hlast Hfew Er) as [_ (P1 & P2 & P3)].
  assert (Hz : forall a e b, m_eqns p = a ++ e :: b -> match sub_peak e with Some s => s | None => 0 end = 0).
  { intros a e b He. unfold sub_peak. rewrite (Hst e); [reflexivity|]. rewrite He. apply in_or_app. right. now left. }
  split; [exact P1|]. split.
  - intros a e b He. specialize (P2 a e b He). rewrite (Hz a e b He) in P2. lia.
  - destruct P3 as [P3|(a & e & b & He & P3)]; [auto|]. right. exists a, e, b. rewrite (Hz a e b He) in P3. split; [exact He|lia].
Qed.
End P.
