(* LayoutCalc.v : the programs of CalcPrims.v compute shapes and sparsity patterns from shapes and sparsity patterns only. *)
From Coq Require Import Reals FunctionalExtensionality.
From Verif Require Export CalcPrims Layout2 ScatLayout.
Set Implicit Arguments.
Open Scope nat_scope.

(* ---- specification ---- *)
(* a function whose output shape is determined by the input shapes, like every JAX primitive *)
Definition shape_only {A} (f : op A) : Prop := forall xs xs' : list (nd A), map (@sh A) xs = map (@sh A) xs' -> sh (o_fwd f xs) = sh (o_fwd f xs').
(* a program all of whose primitives, at any depth, are such functions *)
Inductive shape_only_kind : @opk R prim -> Prop :=
| sk_prim k fs : Forall shape_only (prim_ops k) -> Forall shape_only fs -> shape_only_kind (KPrim k fs)
| sk_custom fs : Forall shape_only fs -> shape_only_kind (KCustom fs)
| sk_pjit name j : (forall e, In e (j_es j) -> shape_only_kind (match e with Eqn k _ _ => k end)) -> shape_only_kind (KPjit name j)
| sk_scan nc nk T rv j : (forall e, In e (j_es j) -> shape_only_kind (match e with Eqn k _ _ => k end)) -> shape_only_kind (KScan nc nk T rv j).
(* specification: every equation computes shapes from shapes *)
Definition shape_only_prog (j : @jaxpr R prim) : Prop := forall e, In e (j_es j) -> shape_only_kind (match e with Eqn k _ _ => k end).

Lemma sn_sh {A} (l m : list (nd A)) : map (@sh A) l = map (@sh A) m -> Forall2 sn l m.
Proof. revert m. induction l as [|x l IH]; intros [|y m] H; try discriminate; constructor. - injection H as H _. exact H. - apply IH. injection H as _ H. exact H. Qed.
Lemma so_shape {A} (f : op A) : shape_only f <-> so f f.
Proof. split; intros H xs xs' Hx; apply H; [apply sn_map_sh|apply sn_sh]; exact Hx. Qed.
Lemma Forall_so {A} (fs : list (op A)) : Forall shape_only fs -> Forall (fun f => so f f) fs.
Proof. apply Forall_impl. intros f. apply so_shape. Qed.
Lemma one_orel (o o' : option (arg R)) : orel sa o o' -> orel (Forall2 sa) (one o) (one o').
Proof. destruct o, o'; cbn; auto. Qed.
Lemma canon_sa (u v : arg R) : sa u v -> sa (canon_arg u) (canon_arg v).
Proof. destruct u, v; cbn; auto. Qed.
Lemma sign_sn (x y : nd R) : sn x y -> sn (sign_det x) (sign_det y).
Proof. unfold sn. intros H. cbn. unfold lead, ndim. rewrite H. reflexivity. Qed.
Lemma sn_join (x y : nd R) : sn x y -> sn (join2 x) (join2 y). Proof. unfold sn. intros H. cbn. rewrite H. reflexivity. Qed.
Lemma sn_split (x y : nd (R * R)) : sn x y -> sn (split2 x) (split2 y). Proof. unfold sn. intros H. cbn. rewrite H. reflexivity. Qed.
Lemma join_split (x : nd (R * R)) : join2 (split2 x) = x.
Proof. destruct x as [s f]. unfold join2, split2. cbn [sh at_]. f_equal; [apply removelast_last|]. apply functional_extensionality. intros p. rewrite !rl, !ll. apply pair_eta. Qed.
Lemma so_rop (f : op (R * R)) : so (rop f) (rop f) -> so f f.
Proof.
  intros H xs xs' Hx. assert (E : forall l : list (nd (R * R)), map join2 (map split2 l) = l) by (intros l; rewrite map_map; rewrite <- (map_id l) at 2; apply map_ext; intros; apply join_split).
  pose proof (H (map split2 xs) (map split2 xs') (R2_map _ _ _ Hx (fun a b => @sn_split a b))) as HS. cbn [rop o_fwd] in HS. rewrite !E in HS. unfold sn in *. cbn [split2 sh] in HS. apply (f_equal (@removelast nat)) in HS. rewrite !removelast_last in HS. exact HS.
Qed.
Lemma dec_sa (u v : arg R) : sa u v -> sa (dec u) (dec v).
Proof.
  destruct u as [a|x], v as [b|y]; cbn; try tauto; [|apply sn_join]. intros (H1 & (H2 & H3) & H4). split; [apply sn_join; exact H1|]. split; [|apply sn_join; exact H4]. split; [exact (@sn_join _ _ H2)|cbn; rewrite H3; reflexivity].
Qed.
Lemma enc_sa (u v : arg (R * R)) : sa u v -> sa (enc u) (enc v).
Proof.
  destruct u as [a|x], v as [b|y]; cbn; try tauto; [|apply sn_split]. intros (H1 & (H2 & H3) & H4). split; [apply sn_split; exact H1|]. split; [|apply sn_split; exact H4]. split; [exact (@sn_split _ _ H2)|cbn; rewrite H3; reflexivity].
Qed.
Lemma ewise_sa {A B} (phi : A -> B) u v : sa u v -> orel sa (wrap_elementwise phi [u]) (wrap_elementwise phi [v]).
Proof. destruct u as [a|x], v as [b|y]; cbn; try tauto. Qed.
Lemma omap_rel {X X' Y Y'} (P : X -> X' -> Prop) (Q : Y -> Y' -> Prop) (f : X -> Y) (g : X' -> Y') o o' : (forall x y, P x y -> Q (f x) (g y)) -> orel P o o' -> orel Q (option_map f o) (option_map g o').
Proof. intros H. destruct o, o'; cbn; auto. Qed.
Lemma re_sa (u v : arg (R * R)) : sa u v -> sa (re_arg u) (re_arg v).
Proof. destruct u as [a|x], v as [b|y]; cbn; try tauto. Qed.
Lemma cabs_scu iy : scu (@cabs_rule R CRing_R iy).
Proof.
  intros args args' ex ex' mg idx _ Ha _. unfold cabs_rule. destruct Ha as [|u u' ? ? Hu Ha]; [exact I|]. destruct Ha; [|exact I]. destruct Hu as (H1 & _). rewrite H1. destruct (sheq (sh (lx u')) []); [reflexivity|exact I].
Qed.
Lemma ck_layout c c2r th xs xs' : so (ck_op c) (ck_op c) -> Forall2 sa xs xs' -> orel sa (ck_run c c2r th xs) (ck_run c c2r th xs').
Proof.
  intros Hk Ha. destruct c; cbn [ck_run ck_op] in *; try (apply wrap_layout; [|exact Ha]; apply srule_plain; exact Hk).
  - apply wrap_layout; [|exact Ha]. split; [exact Hk|apply div_layout].
  - unfold dot_prim. destruct Ha as [|u u' ? ? Hu Ha]; [exact I|]. destruct Ha as [|v v' ? ? Hv Ha]; [exact I|]. destruct Ha; [|exact I].
    pose proof (@dot_general_layout (R * R) CRing_CR c2r th D _ _ _ _ Hu Hv) as H. destruct (dot_general c2r th D u v), (dot_general c2r th D u' v'); cbn in *; auto. destruct a, a0; cbn in *; auto.
  - apply wrap_scatter_layout. exact Ha.
Qed.
Lemma cx_layout c c2r th xs xs' : so (cx_op c) (cx_op c) -> Forall2 sa xs xs' -> orel sa (cx_run c c2r th xs) (cx_run c c2r th xs').
Proof.
  intros Hk Ha. assert (Hd : Forall2 sa (map dec xs) (map dec xs')) by (apply (R2_map _ _ _ Ha); exact dec_sa). destruct c as [c|k|]; cbn [cx_run cx_op] in *.
  - apply (omap_rel _ _ _ _ _ _ enc_sa). apply ck_layout; [apply so_rop; exact Hk|exact Hd].
  - destruct Ha as [|u u' ? ? Hu Ha]; [destruct k; exact I|]. destruct Ha as [|v v' ? ? Hv Ha]; [|destruct k; cbn; destruct u, u', v, v'; exact I]. destruct k; cbn [cross_run map].
    + apply ewise_sa. apply dec_sa. exact Hu.
    + apply ewise_sa. apply dec_sa. exact Hu.
    + apply (omap_rel _ _ _ _ _ _ enc_sa). apply ewise_sa. apply dec_sa. exact Hu.
    + apply (omap_rel _ _ _ _ _ _ enc_sa). apply ewise_sa. exact Hu.
    + exact Hu.
  - unfold abs_run, complex_abs. destruct Ha as [|u u' ? ? Hu Ha]; [exact I|]. destruct Ha; [|exact I]. apply (omap_rel _ _ _ _ _ _ re_sa). apply wrap_layout; [|constructor; [apply dec_sa; exact Hu|constructor]]. split; [apply so_ew|apply cabs_scu].
Qed.
Lemma phaseC_sn (x y : nd (R * R)) : sn x y -> sn (phase_det x) (phase_det y) /\ sn (log_absdetC x) (log_absdetC y).
Proof. unfold sn. intros H. cbn. unfold lead, ndim. rewrite H. auto. Qed.
Lemma slogC_layout c2r th xs xs' : Forall2 sa xs xs' -> orel (Forall2 sa) (slogC_run c2r th xs) (slogC_run c2r th xs').
Proof.
  intros Ha. unfold slogC_run. destruct Ha as [|u u' ? ? Hu Ha]; [exact I|]. destruct Ha; [|exact I]. unfold slogdet_complex. pose proof (dec_sa _ _ Hu) as Hd.
  assert (HX : orel sa (wrap_fl (slogdet_rule phase_det mat_invC) c2r 0%Z [dec u]) (wrap_fl (slogdet_rule phase_det mat_invC) c2r 0%Z [dec u'])).
  { apply wrap_layout; [|constructor; [exact Hd|constructor]]. split; [apply so_logdet|apply slogdet_scu]. }
  destruct (wrap_fl _ _ _ [dec u]) as [[b|y]|], (wrap_fl _ _ _ [dec u']) as [[b'|y']|]; cbn in HX; try contradiction; cbn [bind option_map orel]; auto. cbn [fst snd]. destruct HX as (H1 & (H2 & H3) & H4). unfold sn in *.
  constructor; [apply enc_sa; cbn; unfold sl, sj, sn; cbn; auto|]. constructor; [|constructor]. cbn. unfold sl, sj, sn. cbn. pose proof (sa_aval _ _ Hd) as Hv. destruct (phaseC_sn Hv) as [_ HL]. unfold sn in HL. cbn in HL. rewrite H3. auto.
Qed.
Lemma prim_slr c2r k r : Forall shape_only (prim_ops k) -> prim_reg c2r k = Some r -> slr r.
Proof.
  intros Hk0 H. assert (Hk : so (prim_op k) (prim_op k)) by (apply so_shape; destruct k; cbn [prim_ops] in Hk0; repeat match goal with H : Forall _ (_ :: _) |- _ => inversion H; subst; clear H end; assumption). clear Hk0.
  destruct k; cbn [prim_reg prim_op] in *; try discriminate H; match type of H with Some ?x = Some ?y => assert (E : y = x) by congruence; subst y; clear H end; intros th args args' Ha; try apply one_orel;
    try (apply wrap_layout; [|exact Ha]; apply srule_plain; exact Hk).
  - apply wrap_layout; [|exact Ha]. split; [exact Hk|apply div_layout].
  - unfold dot_prim. destruct Ha as [|u u' ? ? Hu Ha]; [exact I|]. destruct Ha as [|v v' ? ? Hv Ha]; [exact I|]. destruct Ha; [|exact I].
    pose proof (@dot_general_layout R _ c2r th D _ _ _ _ Hu Hv) as H. destruct (dot_general c2r th D u v), (dot_general c2r th D u' v'); cbn in *; auto. apply canon_sa. exact H.
  - cbn. unfold sn. apply Hk. apply (R2_map _ _ _ Ha). intros; apply sa_aval; assumption.
  - destruct Ha as [|u u' ? ? Hu Ha]; [exact I|]. destruct Ha; [|exact I]. pose proof (@slogdet_layout R _ sign_det log_absdet mat_inv c2r th u u' sign_sn Hu) as H.
    destruct (slogdet_wrapper sign_det log_absdet mat_inv c2r th u), (slogdet_wrapper sign_det log_absdet mat_inv c2r th u'); cbn in *; auto. destruct H. auto.
  - exact (@cx_layout c c2r th args args' Hk Ha).
  - apply wrap_scatter_layout. exact Ha.
  - apply slogC_layout. exact Ha.
Qed.
Lemma name_slr c2r k r : name_reg c2r k = Some r -> slr r.
Proof.
  unfold name_reg. destruct (name_prim k) as [p|] eqn:E; [|discriminate]. apply prim_slr.
  destruct k as [|[|[|[|[|[|[|k]]]]]]]; cbn in E; try discriminate; injection E as <-; cbn [prim_ops prim_op]; repeat constructor; apply so_shape; try apply so_ew; try apply so_logdet.
  - intros xs xs' Hx. cbn. apply so_nth. exact Hx.
  - intros xs xs' Hx. cbn. apply sign_sn. apply so_nth. exact Hx.
  - intros xs xs' Hx. cbn [op_phase o_fwd]. apply sn_split. apply phaseC_sn. apply sn_join. apply so_nth. exact Hx.
  - intros xs xs' Hx. cbn [op_logabsC o_fwd]. apply phaseC_sn. apply sn_join. apply so_nth. exact Hx.
Qed.
Lemma kind_sshape c2r k : shape_only_kind k -> sshape (prim_reg c2r) k.
Proof.
  apply (@opk_all R prim (fun k => shape_only_kind k -> sshape (prim_reg c2r) k)); clear k.
  - intros key fs H. inversion H; subst. constructor; [apply Forall_so; assumption|]. intros r. apply prim_slr. assumption.
  - intros fs H. inversion H; subst. constructor. apply Forall_so. assumption.
  - intros name j IH H. inversion H as [| |? ? HF|]; subst. constructor. intros k Hk. apply IH; [exact Hk|]. unfold subops in Hk. apply in_map_iff in Hk. destruct Hk as (e & <- & He). apply HF. exact He.
  - intros nc nk T rv j IH H. inversion H as [| | |? ? ? ? ? HF]; subst. constructor. intros k Hk. apply IH; [exact Hk|]. unfold subops in Hk. apply in_map_iff in Hk. destruct Hk as (e & <- & He). apply HF. exact He.
Qed.
Lemma prog_sshape c2r j : shape_only_prog j -> sshapej (prim_reg c2r) j.
Proof. intros H k Hk. apply kind_sshape. unfold subops in Hk. apply in_map_iff in Hk. destruct Hk as (e & <- & He). apply H. exact He. Qed.

(* ---- scans: the carry keeps its layout, because the first iteration is compared with the initial carry ---- *)
Lemma type_shapes (a c : arg R) : same_type a c = true -> sa a (set_idx c a).
Proof.
  destruct a as [u|x], c as [v|y]; cbn; try discriminate; intros H.
  - apply andb_true_iff in H. destruct H as [H H3]. apply andb_true_iff in H. destruct H as [H1 H2]. apply ixeqb_eq in H1, H2, H3. unfold sl, sj, sn. cbn. auto.
  - apply ixeqb_eq in H. exact H.
Qed.
Lemma types_shapes (carry : list (arg R)) : forall c, Interp.all2 (@same_type R) carry c = true -> Forall2 sa carry (map2 (@set_idx R) c carry).
Proof. induction carry as [|a l IH]; intros [|b m] H; cbn in *; try discriminate; constructor; apply andb_true_iff in H; [apply type_shapes, H|apply IH, H]. Qed.
Lemma sa_ext (a b : arg R) : sa a b -> ext_idx a b.
Proof. destruct a as [u|x], b as [v|y]; cbn; try tauto. intros (_ & (_ & E) & _). rewrite E. destruct (jidx (ljac v)); auto. Qed.
Lemma sa_same_ext (carry fc c : list (arg R)) : Forall2 (@ext_idx R) carry fc -> Forall2 sa fc c -> Forall2 (@ext_idx R) carry c.
Proof. intros H. revert c. induction H as [|x y l m H1 H2 IH]; intros c Hc; inversion Hc; subst; constructor; auto. apply ext_trans with (b := y); [exact H1|]. apply sa_ext. assumption. Qed.
Lemma shape_scan c2r th j nc nk args : shape_only_prog j -> forall fc fy,
  iterate (jrun (prim_reg c2r) (name_reg c2r) c2r false th j false) nc nk args (s_carry nc nk args) 0 = Some (fc, fy) -> Interp.all2 (@carry_match R) (s_carry nc nk args) fc = true ->
  exists J : list (arg R) -> Prop, J (s_carry nc nk args) /\ forall c t c' y, J c -> iterate (jrun (prim_reg c2r) (name_reg c2r) c2r false th j false) nc nk args c t = Some (c', y) ->
    Interp.all2 (@same_type R) (s_carry nc nk args) c' = true -> Forall2 (@ext_idx R) (s_carry nc nk args) c' /\ J (map2 (@set_idx R) c' (s_carry nc nk args)).
Proof.
  intros HS fc fy H1 H2. exists (Forall2 sa (s_carry nc nk args)). split; [apply R2_refl; apply sa_refl|]. intros c t c' y HJ Hi Ht. split; [|apply types_shapes; exact Ht].
  apply sa_same_ext with (fc := fc); [apply matches_ext; exact H2|]. unfold iterate in H1, Hi.
  assert (HL : orel (Forall2 sa) (jrun (prim_reg c2r) (name_reg c2r) c2r false th j false (s_cons nc args ++ s_carry nc nk args ++ map (fun x => AX (row (aval x) 0)) (s_inp nc nk args)))
    (jrun (prim_reg c2r) (name_reg c2r) c2r false th j false (s_cons nc args ++ c ++ map (fun x => AX (row (aval x) t)) (s_inp nc nk args)))).
  { apply jrun_layout; [apply name_slr|apply prog_sshape; exact HS|]. apply Forall2_app; [apply R2_refl; apply sa_refl|]. apply Forall2_app; [exact HJ|]. apply (R2_map (P := sa) _ _ _ (@R2_refl _ sa _ (fun x => sa_refl x))). intros u v Huv. cbn. unfold sn, row. cbn. rewrite (sa_aval _ _ Huv). reflexivity. }
  destruct (jrun _ _ _ _ _ _ _ (s_cons nc args ++ s_carry nc nk args ++ _)) as [r|]; [|discriminate]. destruct (jrun _ _ _ _ _ _ _ (s_cons nc args ++ c ++ _)) as [r'|]; [|discriminate]. injection H1 as <- _. injection Hi as <- _. cbn in HL.
  clear -HL. revert nk. induction HL as [|x y l m Hx HL IH]; intros [|nk]; cbn; constructor; auto.
Qed.
