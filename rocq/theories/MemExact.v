(* MemExact.v : what compute_memory returns on every jaxpr, including those in which an equation reads a dying variable more than once. *)
From Verif Require Export MemFacts.
Set Implicit Arguments.
Local Open Scope Z_scope.

(* ---- specification ---- *)
(* all definitions of the jaxpr: constants, arguments, results of equations *)
Definition defs (p : mprog) : list (var * Z) := m_consts p ++ m_ins p ++ flat_map e_outs (m_eqns p).
(* sum of f over a list of definitions *)
Fixpoint sumd (f : var * Z -> Z) (l : list (var * Z)) : Z := match l with [] => 0 | d :: l' => f d + sumd f l' end.
(* equation e, followed by todo, reads some variables for the last time: the bytes of each of them, once for every read of it by e beyond the first *)
Definition read_again (p : mprog) (e : meqn) (todo : list meqn) : Z :=
  sumd (fun d => if needed p todo (fst d) then 0 else Z.max 0 (occ (fst d) (vars_of (e_ins e)) - 1) * snd d) (defs p).
(* summed over the equations before todo *)
Fixpoint freed_twice (p : mprog) (before todo : list meqn) : Z :=
  match before with [] => 0 | e :: b => read_again p e (b ++ todo) + freed_twice p b todo end.

(* ---- proofs ---- *)
Lemma sumd_ext f g l : (forall d, In d l -> f d = g d) -> sumd f l = sumd g l.
Proof. induction l as [|d l IH]; intros H; cbn; [reflexivity|]. rewrite (H d), IH; auto; [intros d' Hd; apply H; right; auto|left; auto]. Qed.
Lemma sumd_add f g l : sumd (fun d => f d + g d) l = sumd f l + sumd g l.
Proof. induction l as [|d l IH]; cbn; lia. Qed.
Lemma sumd_app f l m : sumd f (l ++ m) = sumd f l + sumd f m.
Proof. induction l as [|d l IH]; cbn; lia. Qed.
Lemma sumd_0 f l : (forall d, In d l -> f d = 0) -> sumd f l = 0.
Proof. induction l as [|d l IH]; intros H; cbn; [reflexivity|]. rewrite (H d), IH; auto; [intros d' Hd; apply H; right; auto|left; auto]. Qed.
Lemma sumd_nonneg f l : (forall d, In d l -> 0 <= f d) -> 0 <= sumd f l.
Proof. induction l as [|d l IH]; intros H; cbn; [lia|]. pose proof (H d (or_introl eq_refl)). assert (0 <= sumd f l) by (apply IH; intros d' Hd; apply H; right; auto). lia. Qed.
Lemma bytes_filter (P : var * Z -> bool) l : bytes (filter P l) = sumd (fun d => if P d then snd d else 0) l.
Proof. induction l as [|[v b] l IH]; cbn; [reflexivity|]. destruct (P (v, b)); cbn; lia. Qed.
Lemma occ_cons v w l : occ v (w :: l) = (if Nat.eqb v w then 1 else 0) + occ v l.
Proof. unfold occ. cbn [filter]. destruct (Nat.eqb v w); cbn [length]; lia. Qed.
Lemma occ_nonneg v l : 0 <= occ v l. Proof. unfold occ. lia. Qed.
Lemma sumd_one (D : list (var * Z)) v x (g : var -> Z) : NoDup (map fst D) -> In (v, x) D -> sumd (fun d => if Nat.eqb (fst d) v then g (fst d) * snd d else 0) D = g v * x.
Proof.
  induction D as [|[w y] D IH]; intros HN HI; [destruct HI|]. cbn [map fst] in HN. inversion HN as [|? ? H1 H2]; subst. cbn [sumd fst snd]. destruct HI as [HI|HI].
  - injection HI as -> ->. rewrite Nat.eqb_refl. rewrite sumd_0; [lia|]. intros [w y] Hw. cbn [fst snd]. destruct (Nat.eqb_spec w v); [|reflexivity]. subst. exfalso. apply H1. apply (in_map fst) in Hw. exact Hw.
  - destruct (Nat.eqb_spec w v); [subst; exfalso; apply H1; apply (in_map fst) in HI; exact HI|]. rewrite IH; auto.
Qed.
Lemma bytes_reads (Q : var -> bool) (D : list (var * Z)) : NoDup (map fst D) -> forall l, (forall d, In d l -> In d D) ->
  bytes (filter (fun d => Q (fst d)) l) = sumd (fun d => if Q (fst d) then occ (fst d) (map fst l) * snd d else 0) D.
Proof.
  intros HN. induction l as [|[v x] l IH]; intros HI.
  - cbn. symmetry. apply sumd_0. intros d _. destruct (Q (fst d)); reflexivity.
  - assert (E : sumd (fun d => if Q (fst d) then occ (fst d) (map fst ((v, x) :: l)) * snd d else 0) D
              = sumd (fun d => if Nat.eqb (fst d) v then (if Q (fst d) then 1 else 0) * snd d else 0) D + sumd (fun d => if Q (fst d) then occ (fst d) (map fst l) * snd d else 0) D).
    { rewrite <- sumd_add. apply sumd_ext. intros d _. cbn [map fst]. rewrite occ_cons. destruct (Q (fst d)), (Nat.eqb (fst d) v); lia. }
    rewrite E, (@sumd_one D v x (fun w => if Q w then 1 else 0) HN (HI _ (or_introl eq_refl))), <- IH by (intros d Hd; apply HI; right; exact Hd).
    cbn [filter fst]. destruct (Q v); cbn [bytes]; lia.
Qed.
Section P.
Context (p : mprog).
Local Notation outs := (vars_of (m_outs p)).
Local Notation base := (fun v => occ v (map fst (m_ins p) ++ map fst (m_consts p))).
Local Notation rds := (flat_map (fun e : meqn => vars_of (e_ins e))).
Lemma free_exact E (D D2 : list (var * Z)) (e : meqn) es2 vals : dom E D -> NoDup (map fst (D ++ D2)) -> defs p = D ++ D2 -> read0_many E (e_ins e) = Some vals ->
  bytes (filter (fun d => needed p (e :: es2) (fst d)) D) - bytes (filter (fun d => negb (needed p es2 (fst d))) (zipv (e_ins e) vals))
  = bytes (filter (fun d => needed p es2 (fst d)) D) - read_again p e es2.
Proof.
  intros HD HN HF HR. destruct (zipv_fst _ _ HR) as [Hf He]. pose proof HN as HN1. rewrite map_app in HN1. apply NoDup_app_remove_r in HN1.
  assert (Hnd : forall v, needed p (e :: es2) v = needed p es2 v || (0 <? occ v (vars_of (e_ins e)))).
  { intros v. rewrite <- mem_var_occ. unfold needed. cbn [flat_map]. unfold mem_var. rewrite existsb_app. rewrite <- !orb_assoc. do 3 f_equal. apply orb_comm. }
  rewrite (@bytes_reads (fun v => negb (needed p es2 v)) D HN1 (zipv (e_ins e) vals)) by (intros [v x] Hd; apply HD, (He v x Hd)).
  rewrite Hf, !bytes_filter. unfold read_again. rewrite HF, sumd_app.
  assert (E2 : sumd (fun d => if needed p es2 (fst d) then 0 else Z.max 0 (occ (fst d) (vars_of (e_ins e)) - 1) * snd d) D2 = 0).
  { apply sumd_0. intros [v b] Hd. cbn [fst snd]. destruct (needed p es2 v); [reflexivity|]. rewrite (proj2 (Z.max_l_iff 0 (occ v (vars_of (e_ins e)) - 1))); [lia|].
    destruct (Z.ltb_spec 0 (occ v (vars_of (e_ins e)))) as [Ho|Ho]; [|lia]. exfalso. assert (Hm : mem_var v (vars_of (e_ins e)) = true) by (rewrite mem_var_occ; apply Z.ltb_lt; exact Ho).
    apply mem_var_In in Hm. rewrite <- Hf in Hm. apply in_map_iff in Hm. destruct Hm as ([w x] & Hw & Hx). cbn in Hw. subst w. pose proof (He v x Hx) as Hv. apply HD in Hv.
    rewrite map_app in HN. apply (in_map fst) in Hv. apply (in_map fst) in Hd. cbn in Hv, Hd. apply in_split in Hv. destruct Hv as (l1 & l2 & El). rewrite El, <- app_assoc in HN. cbn in HN. apply NoDup_remove_2 in HN. apply HN. apply in_or_app. right. apply in_or_app. right. exact Hd. }
  rewrite E2. assert (E1 : sumd (fun d => if needed p (e :: es2) (fst d) then snd d else 0) D = sumd (fun d => if needed p es2 (fst d) then snd d else 0) D
     + sumd (fun d => if negb (needed p es2 (fst d)) then occ (fst d) (vars_of (e_ins e)) * snd d else 0) D
     + - sumd (fun d => if needed p es2 (fst d) then 0 else Z.max 0 (occ (fst d) (vars_of (e_ins e)) - 1) * snd d) D); [|lia].
  assert (EM : forall f l, - sumd f l = sumd (fun d => - f d) l) by (intros f l; induction l; cbn; lia). rewrite EM, <- !sumd_add. apply sumd_ext. intros [v b] _. cbn [fst snd]. rewrite Hnd.
  destruct (needed p es2 v); cbn [orb negb]; [lia|]. pose proof (occ_nonneg v (vars_of (e_ins e))). destruct (Z.ltb_spec 0 (occ v (vars_of (e_ins e)))); [rewrite Z.max_r by lia|rewrite Z.max_l by lia; replace (occ v (vars_of (e_ins e))) with 0 by lia]; lia.
Qed.
Lemma again_once e es2 : NoDup (filter (fun v => negb (needed p es2 v)) (vars_of (e_ins e))) -> read_again p e es2 = 0.
Proof.
  intros HN. apply sumd_0. intros [v b] _. cbn [fst snd]. destruct (needed p es2 v) eqn:En; [reflexivity|]. rewrite Z.max_l; [lia|].
  set (l := vars_of (e_ins e)) in *. clearbody l. induction l as [|w l IH]; [cbn; lia|]. rewrite occ_cons. cbn [filter] in HN. destruct (Nat.eqb_spec v w) as [<-|Hw].
  - rewrite En in HN. cbn [negb] in HN. inversion HN as [|? ? H1 H2]; subst. assert (Ho : occ v l = 0); [|lia]. destruct (Z.ltb_spec 0 (occ v l)) as [Ho|Ho]; [|pose proof (occ_nonneg v l); lia].
    exfalso. apply H1. apply filter_In. rewrite En. split; [|reflexivity]. apply mem_var_In. rewrite mem_var_occ. apply Z.ltb_lt. exact Ho.
  - assert (HN2 : NoDup (filter (fun v => negb (needed p es2 v)) l)) by (destruct (negb (needed p es2 w)); [inversion HN; assumption|exact HN]). specialize (IH HN2). lia.
Qed.
Lemma twice_app a : forall e todo, freed_twice p (a ++ [e]) todo = freed_twice p a (e :: todo) + read_again p e todo.
Proof. induction a as [|e' a IH]; intros e todo; cbn [app freed_twice]; [lia|]. rewrite IH, <- app_assoc. cbn [app]. lia. Qed.
(* one step *)
Lemma mloop_exact : forall es2 es1 m peak subs m' r E,
  ssa p -> m_eqns p = es1 ++ es2 ->
  let D := m_consts p ++ m_ins p ++ flat_map e_outs es1 in
  cnt_ok outs base (mst_s m) (rds es2 ++ outs) -> env_sub (mst_s m) E -> env_live (mst_s m) -> dom E D ->
  mst_mem m = bytes (filter (fun d => needed p es2 (fst d)) D) - freed_twice p es1 es2 ->
  mloop m peak es2 subs = Some (m', r) ->
  peak <= r /\
  (forall a e b, es2 = a ++ e :: b -> exists sp, nth (length a) subs None = Some sp /\ live_bytes p (es1 ++ a) e b - freed_twice p (es1 ++ a) (e :: b) + sp <= r) /\
  (r = peak \/ exists a e b sp, es2 = a ++ e :: b /\ nth (length a) subs None = Some sp /\ live_bytes p (es1 ++ a) e b - freed_twice p (es1 ++ a) (e :: b) + sp = r).
Proof.
  induction es2 as [|e es2 IH]; intros es1 m peak subs m' r E Hssa He D HC HE HL HD Hm H.
  - cbn in H. injection H as <- <-. split; [lia|]. split; [intros a e b Hab; destruct a; discriminate|left; reflexivity].
  - destruct subs as [|sub subs]; [discriminate|]. cbn [mloop] in H.
    cbn [flat_map] in HC. rewrite <- app_assoc in HC.
    pose proof (@read_many_ok Z outs base (base_nonneg p) E (e_ins e) (mst_s m) _ HC HE HL) as HR.
    destruct (read_many (mst_s m) (e_ins e)) as [[vals s1]|]; [|discriminate]. destruct HR as (HR & HC1 & HE1 & HL1).
    destruct sub as [sp|]; [|discriminate].
    set (m1 := Mst s1 (mst_mem m)) in *. set (m2 := mwrite_many m1 (e_outs e)) in *.
    pose proof (mwrite_many_st (e_outs e) m1) as HW. fold m2 in HW. cbn [m1 mst_s] in HW.
    pose proof (@write_many_ok Z outs base (rds es2 ++ outs) (map fst (e_outs e)) s1 E (map snd (e_outs e)) HC1 HE1 HL1) as HW2.
    rewrite HW in HW2. destruct HW2 as (E1 & HW0 & HC2 & HE2 & HL2).
    destruct (mwrite_many_mem (e_outs e) m1) as [Hmem Hcnt]. fold m2 in Hmem, Hcnt. cbn [m1 mst_s mst_mem] in Hmem, Hcnt.
    assert (Hfil : filter (fun d : var * Z => 0 <? cnt s1 (fst d)) (e_outs e) = filter (fun d => needed p es2 (fst d)) (e_outs e)).
    { apply filter_ext. intros d. apply (@cnt_needed p _ es2 (fst d) HC1). }
    rewrite Hfil, Hm in Hmem.
    assert (Hlive : mst_mem m2 = live_bytes p es1 e es2 - freed_twice p es1 (e :: es2)) by (rewrite Hmem; unfold live_bytes; fold D; unfold meqn in *; lia).
    assert (HN : NoDup (map fst (D ++ e_outs e))).
    { assert (Ed : m_consts p ++ m_ins p ++ flat_map e_outs (m_eqns p) = (D ++ e_outs e) ++ flat_map e_outs es2).
      { rewrite He. unfold D. rewrite flat_map_app. cbn [flat_map]. rewrite <- !app_assoc. reflexivity. }
      unfold ssa in Hssa. rewrite Ed, map_app in Hssa. apply NoDup_app_remove_r in Hssa. exact Hssa. }
    assert (HFA : defs p = D ++ (e_outs e ++ flat_map e_outs es2)) by (unfold defs, D; rewrite He, flat_map_app; cbn [flat_map]; rewrite <- !app_assoc; reflexivity).
    assert (HNA : NoDup (map fst (D ++ (e_outs e ++ flat_map e_outs es2)))) by (rewrite <- HFA; exact Hssa).
    assert (HND : NoDup (map fst D)). { rewrite map_app in HN. apply NoDup_app_remove_r in HN. exact HN. }
    assert (Hz : filter (fun d : var * Z => cnt (mst_s m2) (fst d) =? 0) (zipv (e_ins e) vals) = filter (fun d => negb (needed p es2 (fst d))) (zipv (e_ins e) vals)).
    { apply filter_ext. intros d. destruct (@cnt_needed p _ es2 (fst d) HC2) as [Hn Hp]. rewrite <- Hn.
      destruct (Z.ltb_spec 0 (cnt (mst_s m2) (fst d))), (Z.eqb_spec (cnt (mst_s m2) (fst d)) 0); cbn; try reflexivity; lia. }
    rewrite mfree_spec, Hz in H.
    set (peak1 := if peak <? mst_mem m2 + sp then mst_mem m2 + sp else peak) in *.
    assert (Hpk : peak <= peak1 /\ mst_mem m2 + sp <= peak1 /\ (peak1 = peak \/ peak1 = mst_mem m2 + sp)).
    { unfold peak1. destruct (Z.ltb_spec peak (mst_mem m2 + sp)); lia. }
    clearbody peak1. rewrite Hlive in Hpk. destruct Hpk as (Hp1 & Hp2 & Hp3).
    assert (HD' : m_consts p ++ m_ins p ++ flat_map e_outs (es1 ++ [e]) = D ++ e_outs e).
    { unfold D. rewrite flat_map_app. cbn [flat_map]. rewrite app_nil_r, <- !app_assoc. reflexivity. }
    set (m3 := Mst (mst_s m2) (mst_mem m2 - bytes (filter (fun d : var * Z => negb (needed p es2 (fst d))) (zipv (e_ins e) vals)))) in *.
    specialize (IH (es1 ++ [e]) m3 peak1 subs m' r E1 Hssa ltac:(rewrite <- app_assoc; exact He)). cbv zeta in IH. rewrite HD' in IH.
    destruct IH as (I1 & I2 & I3); cbn [m3 mst_s mst_mem]; auto.
    + eapply write0_dom; eauto.
    + rewrite Hmem. rewrite filter_app, bytes_app.
      pose proof (@free_exact E D (e_outs e ++ flat_map e_outs es2) e es2 vals HD HNA HFA HR) as HB. rewrite twice_app. unfold meqn in *. lia.
    + split; [lia|]. split.
      * intros a e' b Hab. destruct a as [|a0 a]; cbn in Hab; injection Hab as -> ->.
        -- exists sp. split; [reflexivity|]. rewrite app_nil_r. lia.
        -- destruct (I2 a e' b eq_refl) as (sp' & Hs' & Hl'). exists sp'. split; [exact Hs'|]. rewrite <- app_assoc in Hl'. exact Hl'.
      * destruct I3 as [->|(a & e' & b & sp' & -> & Hs' & Hl')].
        -- destruct Hp3 as [E0 | E0]; rewrite E0; [left; reflexivity|]. right. exists [], e, es2, sp. rewrite app_nil_r. auto.
        -- right. exists (e :: a), e', b, sp'. rewrite <- app_assoc in Hl'. auto.
Qed.

Theorem jaxpr_memory_exact ret r : ssa p -> few_reads (m_code p) -> jaxpr_memory ret p = Some r ->
  (forall e, In e (m_eqns p) -> sub_peak e <> None) /\
  is_peak p (fun es1 e es2 => live_bytes p es1 e es2 - freed_twice p es1 (e :: es2) + match sub_peak e with Some s => s | None => 0 end) r.
Proof.
  intros Hssa Hfew H.
  assert (H' : exists m', mloop (minit p) 0 (m_eqns p) (map sub_peak (m_eqns p)) = Some (m', r)).
  { destruct p as [cs is es os]. cbn [jaxpr_memory m_eqns] in *. unfold sub_peak, e_sub.
    destruct (mloop _ _ _ _) as [[m' r']|]; [|discriminate]. destruct ret; [destruct (read_many _ _)|]; inversion H; eauto. }
  clear H. destruct H' as (m' & H).
  (* the initial state *)
  pose proof (@init_ok Z (m_code p) (map snd (m_consts p)) (map snd (m_ins p)) Hfew) as HI. cbv zeta in HI. unfold init in HI.
  cbn [m_code c_consts c_ins c_outs c_eqns] in HI.
  set (m0 := Mst (St (fun _ => None) (counts (m_code p))) 0) in *.
  pose proof (mwrite_many_st (m_consts p) m0) as W1. change (mst_s m0) with (@St Z (fun _ => None) (counts (m_code p))) in W1. cbn [m_code] in W1. rewrite W1 in HI.
  pose proof (mwrite_many_st (m_ins p) (mwrite_many m0 (m_consts p))) as W2. rewrite W2 in HI.
  change (mwrite_many (mwrite_many m0 (m_consts p)) (m_ins p)) with (minit p) in HI.
  destruct HI as (E & HI0 & HC & HE & HL). rewrite reads_rds in HC.
  assert (Hc0 : forall v, In v (map fst (m_consts p ++ m_ins p)) -> needed p (m_eqns p) v = true).
  { intros v Hv. rewrite map_app, in_app_iff in Hv. unfold needed. rewrite !orb_true_iff, !mem_var_In. tauto. }
  destruct (mwrite_many_mem (m_consts p) m0) as [M1 C1]. destruct (mwrite_many_mem (m_ins p) (mwrite_many m0 (m_consts p))) as [M2 C2].
  change (mwrite_many (mwrite_many m0 (m_consts p)) (m_ins p)) with (minit p) in M2, C2. rewrite C1 in C2.
  rewrite C1, M1 in M2. change (mst_mem m0) with 0 in M2. rewrite <- C2 in M2.
  assert (Hfi : forall l, filter (fun d : var * Z => 0 <? cnt (mst_s (minit p)) (fst d)) l = filter (fun d => needed p (m_eqns p) (fst d)) l).
  { intros l. apply filter_ext. intros d. apply (@cnt_needed p _ (m_eqns p) (fst d) HC). }
  rewrite !Hfi in M2.
  assert (HD : dom E (m_consts p ++ m_ins p)).
  { unfold init0 in HI0. cbn [m_code c_consts c_ins] in HI0.
    destruct (write0_many (fun _ => None) (map fst (m_consts p)) (map snd (m_consts p))) as [Ec|] eqn:Ec'; [|discriminate].
    assert (Hs : NoDup (map fst (m_consts p ++ m_ins p))).
    { unfold ssa in Hssa. rewrite app_assoc, map_app in Hssa. apply NoDup_app_remove_r in Hssa. exact Hssa. }
    eapply write0_dom; [|exact Hs|exact HI0]. change (m_consts p) with ([] ++ m_consts p). eapply write0_dom; [|cbn|exact Ec'].
    - intros v x. split; [discriminate|intros []].
    - rewrite map_app in Hs. apply NoDup_app_remove_r in Hs. exact Hs. }
  assert (Q := @mloop_exact (m_eqns p) [] (minit p) 0 (map sub_peak (m_eqns p)) m' r E Hssa eq_refl). cbv zeta in Q. cbn [flat_map] in Q. rewrite app_nil_r in Q.
  destruct Q as (Q1 & Q2 & Q3); auto.
  { rewrite M2, filter_app, bytes_app. cbn [freed_twice]. lia. }
  assert (Hn : forall a e b, m_eqns p = a ++ e :: b -> nth (length a) (map sub_peak (m_eqns p)) None = sub_peak e).
  { intros a e b ->. rewrite map_app. rewrite app_nth2 by (rewrite map_length; lia). rewrite map_length, Nat.sub_diag. reflexivity. }
  split.
  - intros e He Hs. apply in_split in He. destruct He as (a & b & He). destruct (Q2 a e b He) as (sp & Hsp & _). rewrite (Hn a e b He) in Hsp. congruence.
  - split; [lia|]. split.
    + intros a e b He. destruct (Q2 a e b He) as (sp & Hsp & Hl). rewrite (Hn a e b He) in Hsp. rewrite Hsp. exact Hl.
    + destruct Q3 as [->|(a & e & b & sp & He & Hsp & Hl)]; [auto|]. right. exists a, e, b. split; [exact He|].
      rewrite (Hn a e b He) in Hsp. rewrite Hsp. exact Hl.
Qed.

End P.

(* specification: no size is negative *)
Definition sizes_ok (p : mprog) : Prop := forall d, In d (defs p) -> 0 <= snd d.
Lemma again_nonneg p e todo : sizes_ok p -> 0 <= read_again p e todo.
Proof. intros H. apply sumd_nonneg. intros [v b] Hd. cbn [fst snd]. specialize (H _ Hd). cbn in H. destruct (needed p todo v); [lia|]. apply Z.mul_nonneg_nonneg; lia. Qed.
Lemma twice_nonneg p es1 es2 : sizes_ok p -> 0 <= freed_twice p es1 es2.
Proof. intros H. revert es2. induction es1 as [|e es1 IH]; intros es2; cbn [freed_twice]; [lia|]. pose proof (@again_nonneg p e (es1 ++ es2) H). specialize (IH es2). lia. Qed.
Theorem compute_memory_exact p : ssa p -> scoped p -> few_reads (m_code p) -> straight_line p ->
  exists r, compute_memory p = Some r /\ is_peak p (fun es1 e es2 => live_bytes p es1 e es2 - freed_twice p es1 (e :: es2)) r.
Proof.
  intros Hssa Hsc Hfew Hst. pose proof (compute_memory_total Hssa Hsc Hfew Hst) as HT.
  destruct (compute_memory p) as [r|] eqn:Er; [|congruence]. exists r. split; [reflexivity|].
  destruct (@jaxpr_memory_exact p false r Hssa Hfew Er) as [_ (P1 & P2 & P3)].
  assert (Hz : forall a e b, m_eqns p = a ++ e :: b -> match sub_peak e with Some s => s | None => 0 end = 0).
  { intros a e b He. unfold sub_peak. rewrite (Hst e); [reflexivity|]. rewrite He. apply in_or_app. right. now left. }
  split; [exact P1|]. split.
  - intros a e b He. specialize (P2 a e b He). rewrite (Hz a e b He) in P2. lia.
  - destruct P3 as [P3|(a & e & b & He & P3)]; [auto|]. right. exists a, e, b. rewrite (Hz a e b He) in P3. split; [exact He|lia].
Qed.
(* specification: the peak of a jaxpr with sub-jaxprs: at every equation the live bytes of the caller and the peak of the callee *)
Inductive peak_of : mprog -> Z -> Prop :=
| Peak p m (callee : meqn -> Z) : (forall e, In e (m_eqns p) -> e_sub e = None -> callee e = 0) -> (forall e q, In e (m_eqns p) -> e_sub e = Some q -> peak_of q (callee e)) ->
    is_peak p (fun es1 e es2 => live_bytes p es1 e es2 + callee e) m -> peak_of p m.
(* specification: p and its sub-jaxprs are in single-assignment form, with sizes that are not negative and fewer than 2^31 reads of an output *)
Inductive well_formed : mprog -> Prop :=
| Wf p : ssa p -> sizes_ok p -> few_reads (m_code p) -> (forall e q, In e (m_eqns p) -> e_sub e = Some q -> well_formed q) -> well_formed p.
Theorem never_overestimates : forall p, well_formed p -> forall m ret r, peak_of p m -> jaxpr_memory ret p = Some r -> r <= m.
Proof.
  fix IH 2. intros p0 [p H1 H2 H3 H4] m0 ret r HP HR. inversion HP as [p' m callee C0 C1 C2 Ep Em]; subst p' m0.
  destruct (@jaxpr_memory_exact p ret r H1 H3 HR) as [_ (P1 & P2 & P3)]. destruct C2 as (Q1 & Q2 & _). destruct P3 as [->|(a & e & b & He & <-)]; [exact Q1|].
  assert (Hin : In e (m_eqns p)) by (rewrite He; apply in_or_app; right; left; reflexivity). specialize (Q2 a e b He). pose proof (@twice_nonneg p a (e :: b) H2).
  assert (Hc : match sub_peak e with Some s => s | None => 0 end <= callee e); [|cbv beta in *; unfold meqn in *; lia].
  specialize (C1 e). specialize (C0 e Hin). unfold sub_peak. specialize (H4 e). destruct (e_sub e) as [q|]; [|rewrite C0 by reflexivity; lia]. specialize (C1 q Hin eq_refl). destruct (jaxpr_memory true q) as [s|] eqn:Eq.
  - apply (IH q (H4 q Hin eq_refl) (callee e) true s C1 Eq).
  - destruct C1 as [q mm ? ? ? (D1 & _)]. exact D1.
Qed.
