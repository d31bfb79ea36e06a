(* HessPrims.v : model of the division rule of folx/custom_hessian.py, and the proof that concrete primitives meet the hypotheses of the
   second-order theorems (batching, product structure, truthful flags). *)
From Verif Require Export HessTop Prims.
Set Implicit Arguments.

Section HP.
Context {A : Type} {RA : CRing A}.
Add Ring Aring_HP : (@rth A RA).
Open Scope cr_scope.

(* ---------- elementwise functions, in_axes = () ---------- *)
Lemma pos_seq0 n k : (k < n)%nat -> pos k (seq 0 n) = k.
Proof. intros H. assert (G : pos (nth k (seq 0 n) 0%nat) (seq 0 n) = k) by (apply pos_nth; [apply seq_NoDup|rewrite seq_length; auto]). rewrite seq_nth in G by auto. exact G. Qed.
Lemma keepax_nil n : keepax n [] = seq 0 n.
Proof. unfold keepax. cbn. induction (seq 0 n) as [|x l IH]; cbn; congruence. Qed.
Lemma sax_nil n : sax n [] = [].
Proof. unfold sax. cbn. induction (seq 0 n) as [|x l IH]; cbn; auto. Qed.
Lemma keep_pos_nil n : keep_pos n [] = seq 0 n.
Proof. unfold keep_pos. cbn. induction (seq 0 n) as [|x l IH]; cbn; congruence. Qed.
Lemma reduced_nil s : reduced_shape s [] = s.
Proof. unfold reduced_shape. rewrite keepax_nil. apply permute_id. Qed.
Lemma bshapes_scalars (l : list (nd A)) : (forall x, In x l -> sh x = []) -> bshapes (map (@sh A) l) = Some [].
Proof.
  unfold bshapes. induction l as [|x l IH]; cbn; intros H; [reflexivity|]. rewrite (H x) by auto. cbn. apply IH. auto.
Qed.
Lemma weave_nil n i : length i = n -> weave n [] i [] = i.
Proof.
  intros H. unfold weave. rewrite keep_pos_nil. cbn. apply nth_ext with (d := 0%nat) (d' := 0%nat); [rewrite map_length, seq_length; auto|].
  rewrite map_length, seq_length. intros k Hk. rewrite nth_map_in with (dx := 0%nat) by (rewrite seq_length; auto). rewrite seq_nth by auto. cbn.
  rewrite pos_seq0 by auto. reflexivity.
Qed.
Lemma bslice_nil b (x : nd A) : (forall p, inb p (sh x) -> True) -> at_ (bslice [] b x) [] = at_ x (bproj (sh x) b) \/ length (bproj (sh x) b) <> ndim x.
Proof.
  intros _. destruct (Nat.eq_dec (length (bproj (sh x) b)) (ndim x)) as [E|E]; [left|right; auto]. unfold bslice. cbn [at_]. rewrite sax_nil, keep_pos_nil.
  unfold ndim. rewrite permute_id. rewrite weave_nil; auto.
Qed.
Lemma F2_length {X Y} (R : X -> Y -> Prop) l m : Forall2 R l m -> length l = length m.
Proof. induction 1; cbn; congruence. Qed.
Theorem ew_batched phi d h (xs : list (nd A)) : bshapes (map (@sh A) xs) <> None -> batched (ew_op phi d h) (map (fun _ => []) xs) xs.
Proof.
  intros HB. split; [rewrite map_length; reflexivity|]. destruct (bshapes (map (@sh A) xs)) as [B|] eqn:EB; [|congruence]. clear HB. exists B, [].
  destruct (bshapes_spec _ EB) as [Hs _].
  split; [|split].
  - rewrite <- EB. f_equal. clear. induction xs as [|x l IH]; cbn; [reflexivity|]. rewrite reduced_nil, IH. reflexivity.
  - cbn [o_fwd ew_op sh]. unfold ew_shape. rewrite EB, app_nil_r. reflexivity.
  - intros b ys Hb HF. assert (Hlen : length ys = length xs).
    { apply F2_length in HF. rewrite <- HF. clear. induction xs as [|x l IH]; cbn; congruence. }
    assert (Hy : forall a, (a < length xs)%nat -> sh (nth a ys nd0) = [] /\ at_ (nth a ys nd0) [] = at_ (nth a xs nd0) (bproj (sh (nth a xs nd0)) b)).
    { intros a Ha. assert (HE : eqa (bslice [] b (nth a xs nd0)) (nth a ys nd0)).
      { clear EB Hs. revert ys HF a Ha Hlen. induction xs as [|x l IH]; intros ys HF a Ha Hlen; cbn in Ha; [lia|]. cbn in HF. inversion HF as [|u v l1 l2 H1 H2 E1 E2]; subst.
        destruct a as [|a]; [exact H1|]. cbn. apply IH; auto; cbn in Hlen; lia. }
      destruct HE as [E1 E2]. assert (Es : sh (bslice [] b (nth a xs nd0)) = []) by (unfold bslice; cbn [sh]; rewrite sax_nil; reflexivity).
      split; [congruence|]. rewrite <- E2 by (rewrite Es; constructor).
      assert (Hbt : bto (sh (nth a xs nd0)) B) by (apply Hs, in_map, nth_In; auto).
      destruct (@bslice_nil b (nth a xs nd0)) as [E|E]; auto. exfalso. apply E. apply inb_length. eapply bproj_inb; eauto. }
    assert (Hsy : forall y, In y ys -> sh y = []) by (intros y Hy'; apply (In_nth _ _ nd0) in Hy'; destruct Hy' as (k & Hk & <-); apply Hy; lia).
    assert (Hv : ew_vals ys [] = ew_vals xs b).
    { unfold ew_vals. apply nth_ext with (d := 0) (d' := 0); [rewrite !map_length; auto|]. rewrite map_length. intros k Hk.
      rewrite !nth_map_in with (dx := nd0) by lia. destruct (Hy k) as [Y1 Y2]; [lia|]. rewrite Y1. cbn. exact Y2. }
    split.
    + cbn [o_fwd ew_op sh]. unfold ew_shape. rewrite bshapes_scalars by auto. reflexivity.
    + intros c a q a' q' Hc Ha Ha' Hq Hq'. inversion Hc; subst c. rewrite app_nil_r.
      rewrite !(nth_map_in) with (dx := nd0) by auto.
      cbn [o_h ew_op]. unfold in_slice. rewrite !keepax_nil.
      replace (length (sh (nth a xs nd0))) with (length q) at 1 by (apply inb_length; auto). replace (length (sh (nth a' xs nd0))) with (length q') at 1 by (apply inb_length; auto).
      rewrite !permute_id. destruct (_ && _); [|reflexivity]. destruct (Hy a Ha) as [Y1 _]. destruct (Hy a' Ha') as [Y2 _]. rewrite Y1, Y2, !sax_nil, Hv. reflexivity.
Qed.

(* ---------- functions without batch axes, in_axes = None ---------- *)
(* f does not look at out-of-bounds entries of its arguments *)
Definition op_ext (f : op A) (xs : list (nd A)) : Prop := forall ys, Forall2 eqa xs ys ->
  sh (o_fwd f ys) = sh (o_fwd f xs) /\
  forall p a q b r, inb p (sh (o_fwd f xs)) -> (a < length xs)%nat -> (b < length xs)%nat -> inb q (sh (nth a xs nd0)) -> inb r (sh (nth b xs nd0)) ->
    o_h f ys p a q b r = o_h f xs p a q b r.
Lemma sax_all n : sax n (seq 0 n) = seq 0 n.
Proof.
  unfold sax. assert (H : forall l, (forall x, In x l -> In x (seq 0 n)) -> filter (fun d => mem d (seq 0 n)) l = l).
  { induction l as [|x l IH]; cbn; intros H; [reflexivity|]. rewrite (proj2 (mem_In x (seq 0 n))) by auto. rewrite IH; auto. }
  apply H. auto.
Qed.
Lemma keepax_all n : keepax n (seq 0 n) = [].
Proof.
  unfold keepax. assert (H : forall l, (forall x, In x l -> In x (seq 0 n)) -> filter (fun d => negb (mem d (seq 0 n))) l = []).
  { induction l as [|x l IH]; cbn; intros H; [reflexivity|]. rewrite (proj2 (mem_In x (seq 0 n))) by auto. cbn. apply IH; auto. }
  apply H. auto.
Qed.
Lemma weave_all n i : length i = n -> weave n (seq 0 n) [] i = i.
Proof.
  intros H. unfold weave. apply nth_ext with (d := 0%nat) (d' := 0%nat); [rewrite map_length, seq_length; auto|].
  rewrite map_length, seq_length. intros k Hk. rewrite nth_map_in with (dx := 0%nat) by (rewrite seq_length; auto). rewrite seq_nth by auto. cbn [Nat.add].
  assert (E : mem k (seq 0 n) = true) by (apply mem_In, in_seq; lia). unfold mem in E. rewrite E.
  rewrite pos_seq0 by auto. reflexivity.
Qed.
Lemma bslice_all (x : nd A) : eqa x (bslice (seq 0 (ndim x)) [] x).
Proof.
  unfold bslice. rewrite sax_all. split; cbn [sh at_]; [unfold ndim; rewrite permute_id; reflexivity|].
  intros i Hi. f_equal. symmetry. unfold ndim. replace (keep_pos (length (sh x)) (seq 0 (length (sh x)))) with (@nil nat).
  - cbn. apply weave_all. apply inb_length; auto.
  - transitivity (keep_pos (length (sh x)) (sax (length (sh x)) (seq 0 (length (sh x))))); [rewrite sax_keep, keepax_all; reflexivity|rewrite sax_all; reflexivity].
Qed.
Theorem full_batched f (xs : list (nd A)) : op_ext f xs -> batched f (map (fun x => seq 0 (ndim x)) xs) xs.
Proof.
  intros He. split; [rewrite map_length; reflexivity|]. exists [], (sh (o_fwd f xs)). split; [|split; [reflexivity|]].
  - clear. assert (H : map2 (fun ax x => reduced_shape (sh x) ax) (map (fun x => seq 0 (ndim x)) xs) xs = map (fun _ => []) xs).
    { induction xs as [|x l IH]; cbn; [reflexivity|]. rewrite IH. f_equal. unfold reduced_shape. unfold ndim. rewrite keepax_all. reflexivity. }
    rewrite H. clear. unfold bshapes. induction xs as [|x l IH]; cbn; [reflexivity|]. exact IH.
  - intros b ys Hb HF. inversion Hb; subst b. clear Hb.
    assert (HE : Forall2 eqa xs ys).
    { clear He. revert ys HF. induction xs as [|x l IH]; intros ys HF; cbn in HF; inversion HF as [|u v l1 l2 H1 H2 E1 E2]; subst; constructor; auto.
      destruct (bslice_all x) as [G1 G2], H1 as [K1 K2]. split; [congruence|]. intros i Hi. rewrite G2 by auto. apply K2. rewrite <- G1. auto. }
    destruct (He ys HE) as [E1 E2]. split; [exact E1|]. intros c a q a' q' Hc Ha Ha' Hq Hq'. cbn [app].
    rewrite !nth_map_in with (dx := nd0) by auto. unfold in_slice, ndim. rewrite !keepax_all, !sax_all. cbn.
    replace (length (sh (nth a xs nd0))) with (length q) by (apply inb_length; auto). replace (length (sh (nth a' xs nd0))) with (length q') by (apply inb_length; auto).
    rewrite !permute_id. symmetry. apply E2; auto.
Qed.
Lemma axes_ok_nil (xs : list (nd A)) : axes_ok (map (fun _ => []) xs) xs.
Proof. split; [apply map_length|]. intros a Ha. rewrite nth_map_in with (dx := nd0) by auto. split; [constructor|intros d []]. Qed.
Lemma axes_ok_all (xs : list (nd A)) : axes_ok (map (fun x => seq 0 (ndim x)) xs) xs.
Proof. split; [apply map_length|]. intros a Ha. rewrite nth_map_in with (dx := nd0) by auto. split; [apply seq_NoDup|]. intros d Hd. apply in_seq in Hd. lia. Qed.

(* ---------- products ---------- *)
Lemma merge_two mg : merge_ok mg 2 0 -> forall a, (a < 2)%nat -> (posof mg 2 0 a < 2)%nat /\ (posof mg 2 0 0 <> posof mg 2 0 1).
Proof.
  intros Hm a Ha. split.
  - destruct (@merge_posof mg 2 0 nat 0%nat [0; 0]%nat [] a Hm) as [P1 _]; auto.
  - intros E. assert (0 = 1)%nat; [|lia]. apply (@posof_inj mg 2 0); auto.
Qed.
(* x * y *)
Theorem mul_dot_core mg (x y : nd A) : merge_ok mg 2 0 -> dot_core op_mul mg [[]; []] [x; y] 0.
Proof.
  intros Hm. split; [reflexivity|]. intros ys es L1 L2 Hs. destruct es; [|discriminate]. destruct ys as [|u [|v [|? ?]]]; try discriminate. clear L1 L2.
  assert (S0 : sh u = []) by (specialize (Hs 0%nat); cbn in Hs; rewrite sax_nil in Hs; apply Hs; lia).
  assert (S1 : sh v = []) by (specialize (Hs 1%nat); cbn in Hs; rewrite sax_nil in Hs; apply Hs; lia).
  split; [reflexivity|]. split; [cbn; congruence|]. intros p q r Hp Hq Hr. cbn in Hq, Hr. rewrite S0 in Hq. rewrite S1 in Hr. inversion Hq; inversion Hr; subst q r.
  cbn [merged o_h]. change (length (@nil (nd A))) with 0%nat.
  destruct (@merge_posof mg 2 0 (nd A) nd0 [u; v] [] 0%nat Hm) as [_ P0]; auto. destruct (@merge_posof mg 2 0 (nd A) nd0 [u; v] [] 1%nat Hm) as [_ P1]; auto.
  cbn [nth] in P0, P1. destruct (@merge_two mg Hm 0%nat) as [B0 Hne]; auto. destruct (@merge_two mg Hm 1%nat) as [B1 _]; auto.
  cbn [op_mul ew_op o_h]. rewrite P0, P1, S0, S1. cbn [bproj map2 ixeqb]. change (ixeqb [] (bproj [] p)) with true. cbn [andb]. change (ixeqb [] []) with true. cbn [andb].
  destruct (posof mg 2 0 0) as [|[|?]], (posof mg 2 0 1) as [|[|?]]; try lia; auto.
Qed.

(* ---------- reduced Jacobians as sums over all inputs ---------- *)
Lemma red_sum n (args : list (lapl A)) idx g2 : (0 < n)%nat -> args <> [] -> (forall a, In a args -> awf n a) -> idx_covers n args idx ->
  get_reduced_jacobians (map (@ljac A) args) idx = Some g2 ->
  exists R g, red_ok (map (@sh A) (xs_of args)) R g g2 /\
  forall F : (nat -> ix -> A) -> A,
    (forall u v, (forall a q, (a < length args)%nat -> inb q (sh (lx (nth a args la0))) -> u a q = v a q) -> F u = F v) ->
    (forall u, (forall a q, (a < length args)%nat -> inb q (sh (lx (nth a args la0))) -> u a q = 0) -> F u = 0) ->
    sumn R (fun r => F (fun a q => g a r q)) = sumn n (fun i => F (fun a q => jent (ljac (nth a args la0)) i q)).
Proof.
  intros Hn Hne Hw Hc Hg. destruct idx as [o|].
  - destruct Hc as (R & Hi & Hcov & Hd). destruct (@red_some _ _ n args o R g2 Hw (proj1 Hi) Hg) as (HR & Hok).
    eexists R, _. split; [exact Hok|]. intros F Fe Fz. rewrite <- (@rowsum _ _ n R (sgo o)).
    + apply sumn_ext. intros k Hk. fold (zrow o R).
      assert (HV : forall a q, (a < length args)%nat -> inb q (sh (lx (nth a args la0))) -> rowval (zrow o R) (ljac (nth a args la0)) k q = match sgo o k with Some i => jent (ljac (nth a args la0)) i q | None => 0 end).
      { intros a q Ha Hq. destruct (weak (ljac (nth a args la0))) eqn:Ew; [eapply rowval_weak; eauto|]. destruct (Hd a Ha) as [Hc|Hc]; [congruence|]. apply rowval_dense; auto. apply (Hc k q); auto. }
      destruct (sgo o k) as [i|]; [apply Fe|apply Fz]; apply HV.
    + intros k i Hk Hs. eapply sgo_range; eauto.
    + intros k k' i Hk Hk' Hs Hs'. eapply sgo_inj; eauto.
    + intros i Hin Hnn. apply Fz. apply Hcov; auto.
  - destruct (red_none Hn Hne Hw Hg) as (R & HR & Hok & Hz). eexists R, _. split; [exact Hok|]. intros F Fe Fz. symmetry. apply sumn_ge; auto.
Qed.

(* ---------- the division rule, custom_hessian.py:81-105 ---------- *)
(* lax.div, [inv] is the reciprocal *)
Context (inv : A -> A).
(* the ring element 2 *)
Definition two : A := 1 + 1.
(* jax.lax.div (registered at wrapped_functions.py:297-442): quotient and its first and second derivatives *)
Definition op_div : op A := ew_op (fun v => nth 0%nat v 0 * inv (nth 1%nat v 0))
  (fun v a => match a with O => inv (nth 1%nat v 0) | S O => - (nth 0%nat v 0 * (inv (nth 1%nat v 0) * inv (nth 1%nat v 0))) | _ => 0 end)
  (fun v a b => let i := inv (nth 1%nat v 0) in
     match a, b with O, S O => - (i * i) | S O, O => - (i * i) | S O, S O => two * nth 0%nat v 0 * (i * (i * i)) | _, _ => 0 end).
(* custom_hessian.py:81-105 div_jac_hessian_jac.  integer_pow(y, -k) is the reciprocal of y^k.  A one-argument call is the denominator
   (the numerator is caught by the LINEAR_IN_FIRST shortcut); other argument counts make the Python function return None (an error). *)
Definition div_jhj : custom_rule A := fun args es mg idx =>
  match mg _ (xs_of args) es with
  | [x; y] =>
    if negb (sheq (sh x) [] && sheq (sh y) []) then None else
    let xv := at_ x [] in let yv := at_ y [] in
    match args with
    | [a; b] =>
        let* l := get_reduced_jacobians [ljac a; ljac b] idx in
        match l with
        | [L; Rg] =>
            let* jrr := matmul (transpose [1; 0]%nat Rg) Rg in
            let* jlr := matmul (transpose [1; 0]%nat L) Rg in
            let ry2 := inv (yv * yv) in
            bin radd (ndmap (rmul (- (two * ry2))) jlr) (ndmap (rmul (two * xv * (ry2 * inv yv))) jrr)
        | _ => None
        end
    | [a] =>
        let* t := trace_jac_jacT (ljac a) (ljac a) idx in
        Some (Nd [] (fun _ => t * (two * xv * inv (yv * (yv * yv)))))
    | _ => None
    end
  | _ => None
  end.
(* division is possible: the denominator and its powers are invertible *)
Definition invertible (y : A) : Prop := y * inv y = 1 /\ (y * y) * inv (y * y) = 1 /\ (y * (y * y)) * inv (y * (y * y)) = 1.
Lemma inv_sq y : invertible y -> inv (y * y) = inv y * inv y.
Proof. intros (H1 & H2 & _). transitivity (inv (y * y) * ((y * inv y) * (y * inv y))); [rewrite H1; ring|]. transitivity (((y * y) * inv (y * y)) * (inv y * inv y)); [ring|]. rewrite H2. ring. Qed.
Lemma inv_cu y : invertible y -> inv (y * (y * y)) = inv y * (inv y * inv y).
Proof.
  intros (H1 & _ & H2). transitivity (inv (y * (y * y)) * ((y * inv y) * ((y * inv y) * (y * inv y)))); [rewrite H1; ring|].
  transitivity (((y * (y * y)) * inv (y * (y * y))) * (inv y * (inv y * inv y))); [ring|]. rewrite H2. ring.
Qed.

Lemma mg_two mg (x y : nd A) : merge_ok mg 2 0 -> posof mg 2 0 0 = 0%nat -> mg _ [x; y] [] = [x; y] /\ posof mg 2 0 1 = 1%nat.
Proof.
  intros Hm H0. destruct (@merge_two mg Hm 1%nat) as [B1 Hne]; auto. assert (H1 : posof mg 2 0 1 = 1%nat) by lia. split; auto.
  destruct (@merge_posof mg 2 0 (nd A) nd0 [x; y] [] 0%nat Hm) as [_ P0]; auto. destruct (@merge_posof mg 2 0 (nd A) nd0 [x; y] [] 1%nat Hm) as [_ P1]; auto.
  rewrite H0 in P0. rewrite H1 in P1. cbn [nth] in P0, P1.
  assert (L : length (mg _ [x; y] []) = 2%nat).
  { destruct Hm as (lay & Hp & H). rewrite (H _ nd0) by auto. rewrite map_length. apply Permutation_length in Hp. rewrite seq_length in Hp. exact Hp. }
  destruct (mg _ [x; y] []) as [|u [|v [|? ?]]]; try discriminate. cbn in P0, P1. congruence.
Qed.
Lemma mg_den mg (x y : nd A) : merge_ok mg 1 1 -> posof mg 1 1 0 = 1%nat -> mg _ [y] [x] = [x; y].
Proof.
  intros Hm H0. destruct (@merge_posof mg 1 1 (nd A) nd0 [y] [x] 0%nat Hm) as [_ P0]; auto. rewrite H0 in P0. cbn [nth] in P0.
  destruct Hm as (lay & Hp & H). pose proof (H _ nd0 [y] [x] eq_refl eq_refl) as E. pose proof (H _ 0%nat [0%nat] [1%nat] eq_refl eq_refl) as E2.
  assert (Hl : length lay = 2%nat) by (apply Permutation_length in Hp; rewrite seq_length in Hp; exact Hp).
  destruct lay as [|l0 [|l1 [|? ?]]]; try discriminate. 
  assert (Hin : In l0 [0; 1]%nat /\ In l1 [0; 1]%nat /\ NoDup [l0; l1]).
  { repeat split.
    - apply (Permutation_in _ Hp). cbn; auto.
    - apply (Permutation_in _ Hp). cbn; auto.
    - apply (Permutation_NoDup (Permutation_sym Hp)). apply seq_NoDup. }
  destruct Hin as ([<-|[<-|[]]] & [<-|[<-|[]]] & Hnd); cbn in E.
  - exfalso. inversion Hnd as [|? ? N]. apply N; cbn; auto.
  - exfalso. unfold posof in H0. rewrite (H _ 0%nat) in H0 by auto. cbn in H0. discriminate.
  - exact E.
  - exfalso. inversion Hnd as [|? ? N]. apply N; cbn; auto.
Qed.
(* sums over a scalar argument *)
Lemma scalar_sum (s : shape) (F : ix -> A) : s = [] -> sumL (allix s) F = F [].
Proof. intros ->. cbn. ring. Qed.
Lemma sumn2 (F : nat -> A) : sumn 2 F = F 0%nat + F 1%nat.
Proof. unfold sumn. cbn. ring. Qed.
Lemma sumn1 (F : nat -> A) : sumn 1 F = F 0%nat.
Proof. unfold sumn. cbn. ring. Qed.
(* both arguments carry derivatives *)
Theorem div_two_exact n mg : (0 < n)%nat -> merge_ok mg 2 0 -> posof mg 2 0 0 = 0%nat ->
  rule_exact n op_div mg div_jhj [1; 1]%nat (fun args es => length args = 2%nat /\ es = [] /\ invertible (at_ (lx (nth 1%nat args la0)) [])).
Proof.
  intros Hn Hm H0 args es idx r Hne Hw (L & -> & Hi) Hc H. destruct args as [|a [|b [|? ?]]]; try discriminate. clear L.
  destruct (@mg_two mg (lx a) (lx b) Hm H0) as [Emg H1]. cbn zeta.
  unfold div_jhj in H. unfold xs_of in H. cbn [map] in H. rewrite Emg in H.
  destruct (sheq (sh (lx a)) []) eqn:Sa; [|discriminate]. destruct (sheq (sh (lx b)) []) eqn:Sb; [|discriminate]. cbn [andb negb] in H. apply sheq_eq in Sa, Sb.
  destruct (get_reduced_jacobians [ljac a; ljac b] idx) as [g2|] eqn:EG; [|discriminate]. cbn [bind] in H.
  destruct (@red_sum n [a; b] idx g2 Hn Hne Hw Hc EG) as (R & g & (RL & RS) & Hsum).
  destruct g2 as [|L [|Rg [|? ?]]]; try discriminate RL.
  destruct (RS 0%nat) as [S0 G0]; [cbn; lia|]. destruct (RS 1%nat) as [S1 G1]; [cbn; lia|]. cbn [nth xs_of map] in S0, S1, G0, G1. rewrite Sa in S0, G0. rewrite Sb in S1, G1. cbn [prod] in S0, S1.
  unfold matmul in H. cbn [transpose sh] in H. rewrite S0, S1 in H. cbn [permute map nth] in H. rewrite Nat.eqb_refl in H. cbn [bind] in H.
  unfold bin in H. cbn [ndmap sh] in H. cbn [bshape2 rev app bsr option_map Nat.eqb] in H. change (bshape2 [1%nat; 1%nat] [1%nat; 1%nat]) with (Some [1%nat; 1%nat]) in H. injection H as <-.
  set (i := inv (at_ (lx b) [])) in *. set (x := at_ (lx a) []) in *.
  assert (Es : sh (o_fwd (merged op_div mg (length [a; b]) []) (xs_of [a; b])) = []).
  { cbn [merged o_fwd]. unfold xs_of. cbn [map]. rewrite Emg. cbn [op_div ew_op o_fwd sh]. unfold ew_shape. rewrite bshapes_scalars; auto. intros z [<-|[<-|[]]]; auto. }
  split; [reflexivity|]. split; [rewrite Es; reflexivity|]. intros c Hcc. rewrite Es in Hcc. inversion Hcc; subst c. rewrite Es. clear Hcc.
  unfold hspec, quad.
  set (F := fun u : nat -> ix -> A => - (two * (i * i)) * (u 0%nat [] * u 1%nat []) + two * x * (i * (i * i)) * (u 1%nat [] * u 1%nat [])).
  transitivity (sumn n (fun k => F (fun a0 q => jent (ljac (nth a0 [a; b] la0)) k q))).
  - rewrite <- (Hsum F); unfold F.
    + cbn. unfold ndim. rewrite ?S0, ?S1. cbn. rewrite inv_sq by auto. fold i. unfold sumn. rewrite <- !sumL_scale. rewrite <- sumL_add. apply sumL_ext. intros k Hk. apply in_seq in Hk.
      pose proof (G0 k [] ltac:(lia) ltac:(constructor)) as K0. pose proof (G1 k [] ltac:(lia) ltac:(constructor)) as K1. cbn in K0, K1. rewrite K0, K1. fold x. ring.
    + intros u v Huv. rewrite !Huv; try reflexivity; cbn; try lia; rewrite ?Sa, ?Sb; apply Forall2_nil.
    + intros u Hu. rewrite !Hu; try ring; cbn; try lia; rewrite ?Sa, ?Sb; apply Forall2_nil.
  - unfold F. apply sumn_ext. intros k Hk. cbn [xs_of map length]. rewrite !sumn2. cbn [nth]. rewrite !Sa, !Sb. cbn [allix sumL]. rewrite !sumn2. cbn [nth]. rewrite !Sa, !Sb. cbn [allix sumL].
    cbn [merged o_h length]. rewrite H0, H1, Emg. cbn [op_div ew_op o_h nth]. rewrite !Sa, !Sb. change (ixeqb [] (bproj [] [])) with true. cbn [andb].
    unfold ew_vals. cbn [map nth]. rewrite Sa, Sb. change (bproj [] []) with (@nil nat). fold i. fold x. unfold two. ring.
Qed.
(* only the denominator carries derivatives *)
Theorem div_den_exact n mg : (0 < n)%nat -> merge_ok mg 1 1 -> posof mg 1 1 0 = 1%nat ->
  rule_exact n op_div mg div_jhj [] (fun args es => length args = 1%nat /\ length es = 1%nat /\ invertible (at_ (lx (nth 0%nat args la0)) [])).
Proof.
  intros Hn Hm H0 args es idx r Hne Hw (L & Le & Hi) Hc H. destruct args as [|b [|? ?]]; try discriminate. destruct es as [|ex [|? ?]]; try discriminate. clear L Le.
  pose proof (@mg_den mg ex (lx b) Hm H0) as Emg. cbn zeta.
  unfold div_jhj in H. unfold xs_of in H. cbn [map] in H. rewrite Emg in H.
  destruct (sheq (sh ex) []) eqn:Sa; [|discriminate]. destruct (sheq (sh (lx b)) []) eqn:Sb; [|discriminate]. cbn [andb negb] in H. apply sheq_eq in Sa, Sb.
  unfold trace_jac_jacT in H. destruct (get_reduced_jacobians [ljac b; ljac b] idx) as [g2|] eqn:EG; [|discriminate]. cbn [bind] in H.
  destruct (@red_sum n [b; b] idx g2 Hn) as (R & g & (RL & RS) & Hsum); [discriminate|intros z [<-|[<-|[]]]; apply Hw; cbn; auto| |exact EG|].
  { destruct idx as [o|]; [|exact I]. destruct Hc as (R & C1 & C2 & C3). exists R. split; [exact C1|]. split.
    - intros i Hi' Hk a q Ha Hq. assert (E : nth a [b; b] la0 = nth 0%nat [b] la0) by (destruct a as [|[|?]]; cbn in Ha |- *; auto; lia). rewrite E in Hq |- *. apply C2; cbn; auto.
    - intros a Ha. assert (E : nth a [b; b] la0 = nth 0%nat [b] la0) by (destruct a as [|[|?]]; cbn in Ha |- *; auto; lia). rewrite E. apply C3. cbn; auto. }
  destruct g2 as [|L [|Rg [|? ?]]]; try discriminate RL.
  destruct (RS 0%nat) as [S0 G0]; [cbn; lia|]. destruct (RS 1%nat) as [S1 G1]; [cbn; lia|]. cbn [nth xs_of map] in S0, S1, G0, G1. rewrite Sb in S0, S1, G0, G1. cbn [prod] in S0, S1.
  destruct (einsum2 L Rg) as [t|] eqn:Et; [|discriminate]. cbn [bind] in H. injection H as <-.
  assert (RO : red_ok [[]; []] R g [L; Rg]).
  { split; [reflexivity|]. intros a Ha. cbn in Ha. destruct a as [|[|?]]; [| |lia]; cbn [nth]; split; auto. }
  pose proof (@einsum2_red _ _ [] R g L Rg RO) as Ht. 
  set (i := inv (at_ (lx b) [])) in *. set (x := at_ ex []) in *.
  assert (Es : sh (o_fwd (merged op_div mg (length [b]) [ex]) (xs_of [b])) = []).
  { cbn [merged o_fwd]. unfold xs_of. cbn [map]. rewrite Emg. cbn [op_div ew_op o_fwd sh]. unfold ew_shape. rewrite bshapes_scalars; auto. intros z [<-|[<-|[]]]; auto. }
  split; [reflexivity|]. split; [rewrite Es; reflexivity|]. intros c Hcc. rewrite Es in Hcc. inversion Hcc; subst c. rewrite Es. clear Hcc.
  unfold hspec, quad.
  set (F := fun u : nat -> ix -> A => two * x * (i * (i * i)) * (u 0%nat [] * u 1%nat [])).
  transitivity (sumn n (fun k => F (fun a0 q => jent (ljac (nth a0 [b; b] la0)) k q))).
  - rewrite <- (Hsum F); unfold F.
    + cbn. rewrite inv_cu by auto. fold i. rewrite Et in Ht. injection Ht as Ht. rewrite Ht. unfold sumn. rewrite <- !sumL_scale_r. apply sumL_ext. intros k Hk. cbn. fold x. ring.
    + intros u v Huv. rewrite !Huv; try reflexivity; cbn; try lia; rewrite ?Sb; apply Forall2_nil.
    + intros u Hu. rewrite !Hu; try ring; cbn; try lia; rewrite ?Sb; apply Forall2_nil.
  - unfold F. apply sumn_ext. intros k Hk. cbn [xs_of map length]. rewrite !sumn1. cbn [nth]. rewrite !Sb. cbn [allix sumL]. rewrite !sumn1. cbn [nth]. rewrite !Sb. cbn [allix sumL].
    cbn [merged o_h length]. rewrite H0, Emg. cbn [op_div ew_op o_h nth]. rewrite !Sb. change (ixeqb [] (bproj [] [])) with true. cbn [andb].
    unfold ew_vals. cbn [map nth]. rewrite Sa, Sb. change (bproj [] []) with (@nil nat). fold i. fold x. unfold two. ring.
Qed.
End HP.
