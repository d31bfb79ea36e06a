(* Slog.v : the forward-Laplacian rule of slogdet for real matrices (wrapped_functions.py:194-259). *)
From Verif Require Export Rules.
Set Implicit Arguments.

Section Slog.
Context {A : Type} {RA : CRing A}.
Add Ring Aring_Slog : (@rth A RA).
Open Scope cr_scope.
(* the values of sign, log|det| and the inverse, all mapped over the leading axes; they only read the elements of their argument *)
Context (sgn ld mi : nd A -> nd A).
(* a function of arrays that reads only elements in bounds *)
Definition ext1 (g : nd A -> nd A) : Prop := forall x y, eqa x y -> forall i, at_ (g x) i = at_ (g y) i.
(* wrapped_functions.py:238-259 slogdet_wrapper, real dtype (l.248-256, the complex branch, is in Cplx.v): the wrapper is called with
   sparsity_threshold=0 whatever the threshold of the trace is; the sign is returned as a plain array (l.243-244). *)
Definition slogdet_rule : rule A := fn_rule (Fn (op_logdet ld mi) None None) 0%Z (Some (slogdet_jhj mi)).
(* wrapped_functions.py:238-259 slogdet_wrapper *)
Definition slogdet_wrapper (c2r : bool) (threshold : Z) (v : arg A) : option (arg A * arg A) :=
  let* l := wrap_fl slogdet_rule c2r 0%Z [v] in Some (AX (sgn (aval v)), l).

Lemma lead_of (x : nd A) L m : sh x = L ++ [m; m] -> lead x = L.
Proof.
  intros Hs. assert (Nd2 : (ndim x - 2)%nat = length L) by (unfold ndim; rewrite Hs, app_length; cbn; lia).
  unfold lead. rewrite Nd2, Hs, firstn_app, Nat.sub_diag, firstn_all, firstn_O, app_nil_r. reflexivity.
Qed.
Lemma logdet_ext (x : nd A) : ext1 mi -> op_ext (op_logdet ld mi) [x].
Proof.
  intros Hm ys HF. inversion HF as [|u y l1 l2 HX HF2 E1 E2]; subst. inversion HF2; subst. pose proof HX as [H1 H2].
  split; [cbn; unfold lead, ndim; rewrite H1; reflexivity|]. intros p a q b r Hp Ha Hb Hq Hr. cbn in Ha, Hb. assert (a = 0%nat) by lia. assert (b = 0%nat) by lia. subst a b.
  cbn. unfold mat. rewrite !(Hm x y HX). reflexivity.
Qed.
Lemma bslice_full_eqa (x : nd A) b y : eqa (bslice (seq 0 (ndim x)) b x) y -> sh y = sh x.
Proof.
  intros [H _]. rewrite <- H. unfold bslice. cbn [sh]. rewrite sax_all. unfold ndim. apply permute_id.
Qed.
Theorem slogdet_sound n c2r th a L m r : (0 < n)%nat -> vok n (AL a) -> sh (lx a) = L ++ [m; m] -> ext1 mi ->
  (forall x, sh x = L ++ [m; m] -> sh (mi x) = L ++ [m; m]) -> slogdet_wrapper c2r th (AL a) = Some r ->
  fst r = AX (sgn (lx a)) /\ exists b, snd r = AL b /\ arg_ok n (op_logdet ld mi) [AL a] b /\ jrow1 (ljac b).
Proof.
  intros Hn Hv Hs He Hm H. unfold slogdet_wrapper in H. destruct (wrap_fl slogdet_rule c2r 0 [AL a]) as [l|] eqn:E; [|discriminate]. cbn [bind] in H.
  apply (f_equal (fun o => match o with Some t => t | None => r end)) in H. cbv beta iota in H. rewrite <- H. split; [reflexivity|]. cbn [snd]. clear H.
  assert (Hn1 : als [AL a] <> []) by discriminate. assert (HV : forall v, In v [AL a] -> vok n v) by (intros v [<-|[]]; exact Hv).
  refine (@wrap_sound _ _ n slogdet_rule c2r 0%Z [AL a] _ _ l Hn1 (canon_none _ _) (canon_none _ _) _ _ E).
  - intros t Ht. refine (@fn_first _ _ n (op_logdet ld mi) 0%Z 0%Z [AL a] t Hn Hn1 HV _ eq_refl Ht). right. left. reflexivity.
  - intros h Eh. pose proof (@fn_setup _ _ n (op_logdet ld mi) [AL a] Hn Hn1 HV (@logdet_ext (lx a) He)) as HS.
    cbn [als exs flat_map app map length] in HS, Eh |- *. change (mask_of [AL a]) with [true] in *.
    refine (@vmapped_custom A _ n (op_logdet ld mi) c2r 0%Z (slogdet_jhj mi) [] [seq 0 (ndim (lx a))] [] (merge_of [true]) 0%Z [a] h L
       (fun args es => length args = 1%nat /\ es = [] /\ sh (lx (nth 0%nat args la0)) = L ++ [m; m]) HS eq_refl _ (@slogdet_exact A _ ld mi n (merge_of [true]) L m Hn (merge_of_ok [true]) Hm) _ Eh).
    + destruct (any_weak [a]) eqn:Ew; [right|auto]. intros x [<-|[]] Hw. unfold any_weak in Ew. cbn in Ew. rewrite Hw in Ew. discriminate.
    + intros brd b args' es Hbrd Hb Hl (L1 & L2 & HM) (L3 & _ & _). split; [exact Hl|]. split; [destruct es; [reflexivity|discriminate]|].
      specialize (HM 0%nat ltac:(cbn; lia)). cbn [nth xs_of map] in HM. destruct args' as [|a' [|? ?]]; try discriminate. cbn [nth xs_of map] in HM |- *. rewrite (bslice_full_eqa HM). exact Hs.
Qed.
(* the chain-rule sums of arg_ok in closed form *)
Lemma sum_last2 (L : shape) m p (F : ix -> A) : inb p L -> (forall q, inb q (L ++ [m; m]) -> firstn (length q - 2) q <> p -> F q = 0) ->
  sumL (allix (L ++ [m; m])) F = sumn m (fun i => sumn m (fun j => F (p ++ [i; j]))).
Proof.
  intros Hp HF. apply sum_lead; auto. intros q0 t Hq Ht Hne. apply HF; [apply inb_app; auto|].
  replace (length (q0 ++ t) - 2)%nat with (length q0) by (rewrite app_length; apply inb_length in Ht; cbn in Ht; lia). rewrite firstn_app, Nat.sub_diag, firstn_all, firstn_O, app_nil_r. exact Hne.
Qed.
Lemma logdet_chain (a : lapl A) L m p (v : nat -> ix -> A) : sh (lx a) = L ++ [m; m] -> inb p L ->
  chain1 (op_logdet ld mi) [lx a] p v = sumn m (fun i => sumn m (fun j => mat (mi (lx a)) p i j * v 0%nat (p ++ [j; i]))).
Proof.
  intros Hs Hp. unfold chain1. cbn [length]. rewrite sumn1. cbn [nth]. rewrite Hs. rewrite (@sum_last2 L m p); auto.
  - rewrite sumn_swap. apply sumn_ext. intros i _. apply sumn_ext. intros j _. cbn [op_logdet o_d nth]. rewrite !app_length. cbn [length].
    replace (length p + 2 - 2)%nat with (length p) by lia. rewrite !firstn_app, !skipn_app, !Nat.sub_diag, !firstn_all, !skipn_all, !firstn_O, !app_nil_r. rewrite ixeqb_refl. reflexivity.
  - intros q Hq Hne. cbn [op_logdet o_d nth]. rewrite ixeqb_neq by auto. ring.
Qed.
Theorem logdet_forms n (a b : lapl A) L m : (0 < n)%nat -> sh (lx a) = L ++ [m; m] -> arg_ok n (op_logdet ld mi) [AL a] b ->
  sh (lx b) = L /\ (forall p, inb p L ->
    let N := mat (mi (lx a)) p in
    at_ (lx b) p = at_ (ld (lx a)) p /\
    (forall i, jent (ljac b) i p = sumn m (fun s => sumn m (fun t => N s t * jent (ljac a) i (p ++ [t; s])))) /\
    at_ (llap b) p = sumn m (fun s => sumn m (fun t => N s t * at_ (llap a) (p ++ [t; s]))) - sumn n (fun i => trBB N m (fun s t => jent (ljac a) i (p ++ [s; t])))).
Proof.
  intros Hn Hs (H1 & H2 & H3 & H4). cbn [map aval op_logdet o_fwd sh nth] in *. rewrite (@lead_of (lx a) L m Hs) in *. split; [rewrite H1; reflexivity|].
  intros p Hp. set (N := mat (mi (lx a)) p). split; [rewrite H1; reflexivity|]. split.
  - intros i. rewrite H3 by auto. unfold dspec. cbn [map lift xs_of]. rewrite (@logdet_chain a L m p) by auto. reflexivity.
  - rewrite H4 by auto. unfold lspec. cbn [map lift xs_of]. rewrite (@logdet_chain a L m p) by auto. cbn [nth].
    change (hspec n (op_logdet ld mi) [a] p) with (hspec n (merged (op_logdet ld mi) (merge_of [true]) 1 []) [a] p).
    rewrite (@logdet_hspec A _ ld mi n (merge_of [true]) L m a p (merge_of_ok [true]) Hs Hp). rewrite sumn_opp. fold N. ring.
Qed.
End Slog.
