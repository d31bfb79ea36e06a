(* DotCalc.v : dot_general (DotGen.v) over the reals is twice differentiable, and its rule is exact in the form used for whole programs. *)
From Coq Require Import Reals Lra FunctionalExtensionality.
From Coquelicot Require Import Coquelicot.
From Verif Require Export CalcFun DotFacts.
Set Implicit Arguments.
Open Scope nat_scope.

Section Canon.
Context {A : Type} {RA : CRing A}.
(* An array of the model is a shape with a function on all indices.  canon sets the function to 0 outside the shape, so that two arrays with the same
   elements become equal terms.  It changes no element of the array. *)
Definition canon (x : nd A) : nd A := Nd (sh x) (fun p => if inbb p (sh x) then at_ x p else r0).
(* representation of arrays by their in-bounds elements (no /repo code) *)
Definition canon_arg (v : arg A) : arg A := match v with AL a => AL (Lapl (canon (lx a)) (ljac a) (llap a)) | AX x => AX (canon x) end.
(* dot_general (wrapped_functions.py:61-183) with that representation of its value *)
Definition dot_prim (c2r : bool) (th : Z) (Dm : dims) (xs : list (arg A)) : option (arg A) :=
  match xs with [u; v] => option_map canon_arg (dot_general c2r th Dm u v) | _ => None end.
(* lax.dot_general with its partial derivatives *)
Definition op_dotc (Dm : dims) : op A := Op (fun xs => canon (o_fwd (op_dot Dm) xs)) (o_d (op_dot Dm)) (o_h (op_dot Dm)).
(* two operands whose shapes fit the dimension numbers *)
Definition dot_fits (Dm : dims) (xs : list (nd A)) : Prop := exists x y, xs = [x; y] /\ dims_ok Dm (sh x) (sh y).
(* two sparse operands for which the transpositions are skipped: only where that is right (C24) *)
Definition mixD (Dm : dims) (args : list (arg A)) : Prop := match args with
  | [u; v] => sparse_arg u && sparse_arg v = true -> fast_taken Dm (sh (aval u)) (sh (aval v)) = true -> fast_right Dm (sh (aval u)) (sh (aval v))
  | _ => True end.

Lemma canon_eq x y : eqa x y -> canon x = canon y.
Proof.
  intros [E H]. unfold canon. rewrite <- E. f_equal. apply functional_extensionality. intros p. destruct (inbb p (sh x)) eqn:Hp; [apply H, inb_dec, Hp|reflexivity].
Qed.
Lemma canon_eqa x : eqa (canon x) x.
Proof. split; [reflexivity|]. intros p Hp. cbn in *. apply inb_dec in Hp. rewrite Hp. reflexivity. Qed.
Lemma canon_at x p : inb p (sh x) -> at_ (canon x) p = at_ x p.
Proof. intros Hp. apply (canon_eqa x). exact Hp. Qed.

End Canon.

Section Ix.
Context (Dm : dims) (sl sr : shape) (HD : dims_ok Dm sl sr).
Lemma lix_in p c : inb p (dot_shape Dm sl sr) -> inb c (permute (lc Dm) sl) -> inb (lix Dm sl p c) sl.
Proof.
  intros Hp Hc. destruct HD as (N1 & N2 & _). rewrite (lix_side Dm sl sr). rewrite lshape_side in Hp.
  apply (@side_inb sl (lc Dm) (lb Dm) (length (rf Dm sr)) false N1 (permute (rf Dm sr) sr)); auto. apply permute_length.
Qed.
Lemma rix_in p c : inb p (dot_shape Dm sl sr) -> inb c (permute (lc Dm) sl) -> inb (rix Dm sl sr p c) sr.
Proof.
  intros Hp Hc. pose proof HD as (_ & _ & N3 & N4 & _ & _ & _ & N8). rewrite (rix_side Dm sl sr). rewrite (rshape_side HD) in Hp. rewrite N8 in Hc.
  apply (@side_inb sr (rc Dm) (rb Dm) (length (lf Dm sl)) true N3 (permute (lf Dm sl) sl)); auto. apply permute_length.
Qed.
End Ix.

Section Dot.
Context {A : Type} {RA : CRing A}.
Add Ring Aring_DC : (@rth A RA).
Open Scope cr_scope.
Context (Dm : dims) (x y : nd A) (HD : dims_ok Dm (sh x) (sh y)).
Let sl := sh x. Let sr := sh y. Let C := allix (permute (lc Dm) sl).
Lemma dot_ixs p c : inb p (dot_shape Dm sl sr) -> In c C -> inb (lix Dm sl p c) sl /\ inb (rix Dm sl sr p c) sr.
Proof. intros Hp Hc. apply allix_spec in Hc. split; [apply (lix_in HD)|apply (rix_in HD)]; auto. Qed.
Lemma dot_chain p w : inb p (dot_shape Dm sl sr) -> chain1 (op_dot Dm) [x; y] p w =
  sumL C (fun c => at_ y (rix Dm sl sr p c) * w 0%nat (lix Dm sl p c) + at_ x (lix Dm sl p c) * w 1%nat (rix Dm sl sr p c)).
Proof.
  intros Hp. unfold chain1. cbn [length]. rewrite sumn2. cbn [nth]. rewrite sumL_add. f_equal; cbn [op_dot o_d nth]; fold sl; fold sr; fold C.
  - transitivity (sumL (allix sl) (fun q => sumL C (fun c => (if ixeqb q (lix Dm sl p c) then at_ y (rix Dm sl sr p c) else 0) * w 0%nat q))).
    { apply sumL_ext. intros q _. rewrite sumL_scale_r. reflexivity. }
    rewrite sumL_swap. apply sumL_ext. intros c Hc. destruct (@dot_ixs p c Hp Hc) as [I1 I2]. rewrite (@sum_at _ _ _ _ _ I1); [rewrite ixeqb_refl; reflexivity|]. intros q Hq Hx. rewrite ixeqb_neq by auto. ring.
  - transitivity (sumL (allix sr) (fun q => sumL C (fun c => (if ixeqb q (rix Dm sl sr p c) then at_ x (lix Dm sl p c) else 0) * w 1%nat q))).
    { apply sumL_ext. intros q _. rewrite sumL_scale_r. reflexivity. }
    rewrite sumL_swap. apply sumL_ext. intros c Hc. destruct (@dot_ixs p c Hp Hc) as [I1 I2]. rewrite (@sum_at _ _ _ _ _ I2); [rewrite ixeqb_refl; reflexivity|]. intros q Hq Hx. rewrite ixeqb_neq by auto. ring.
Qed.
Lemma dot_quad p w : inb p (dot_shape Dm sl sr) -> quad (op_dot Dm) [x; y] p w w = sumL C (fun c => (1 + 1) * (w 0%nat (lix Dm sl p c) * w 1%nat (rix Dm sl sr p c))).
Proof.
  intros Hp. unfold quad. cbn [length]. rewrite sumn2. cbn [nth]. fold sl. fold sr.
  transitivity (sumL (allix sl) (fun q => sumL (allix sr) (fun r => sumL C (fun c => if ixeqb q (lix Dm sl p c) && ixeqb r (rix Dm sl sr p c) then 1 else 0) * (w 0%nat q * w 1%nat r))) +
                sumL (allix sr) (fun q => sumL (allix sl) (fun r => sumL C (fun c => if ixeqb q (rix Dm sl sr p c) && ixeqb r (lix Dm sl p c) then 1 else 0) * (w 1%nat q * w 0%nat r)))).
  { f_equal; apply sumL_ext; intros q _; rewrite sumn2; cbn [nth op_dot o_h]; fold sl; fold sr; fold C.
    - rewrite (@sumL_zero _ _ _ (allix sl)) by (intros; ring). ring.
    - rewrite (@sumL_zero _ _ _ (allix sr)) by (intros; ring). ring. }
  rewrite !pair_sum; [|intros c Hc; destruct (@dot_ixs p c Hp Hc); auto|intros c Hc; destruct (@dot_ixs p c Hp Hc); auto]. rewrite <- sumL_add. apply sumL_ext. intros c _. ring.
Qed.
End Dot.

Section DotA.
Context {A : Type} {RA : CRing A} {JA : @Jet A RA}.
Add Ring Aring_DotA : (@rth A RA).
Local Open Scope cr_scope.
Lemma dot_fwd_same Dm (xs ys : list (nd A)) : dot_fits Dm xs -> map (@sh A) ys = map (@sh A) xs -> sh (o_fwd (op_dot Dm) ys) = sh (o_fwd (op_dot Dm) xs) /\ forall p, at_ (o_fwd (op_dot Dm) ys) p =
  sumL (allix (permute (lc Dm) (sh (nth 0 xs nd0)))) (fun c => at_ (nth 0 ys nd0) (lix Dm (sh (nth 0 xs nd0)) p c) * at_ (nth 1 ys nd0) (rix Dm (sh (nth 0 xs nd0)) (sh (nth 1 xs nd0)) p c)).
Proof.
  intros (x & y & -> & HD) E. destruct ys as [|x' [|y' [|? ?]]]; try discriminate. injection E as E1 E2. cbn [op_dot o_fwd nth sh at_]. rewrite E1, E2. split; reflexivity.
Qed.
Lemma dot_ext Dm xs : dot_fits Dm xs -> fwd_ext (op_dotc Dm) xs.
Proof.
  intros HF ys HE. assert (Es : map (@sh A) ys = map (@sh A) xs) by (clear -HE; induction HE as [|x y xs ys [H _] _ IH]; cbn; congruence).
  destruct (@dot_fwd_same Dm xs ys HF Es) as [S1 V1]. destruct (@dot_fwd_same Dm xs xs HF eq_refl) as [_ V0].
  cbn [op_dotc o_fwd]. rewrite (@canon_eq A RA (o_fwd (op_dot Dm) xs) (o_fwd (op_dot Dm) ys)); [split; auto|]. split; [auto|]. intros p Hp. rewrite V0, V1. destruct HF as (x & y & -> & HD).
  inversion HE as [|? x' ? l' E1 HE1]; subst. inversion HE1 as [|? y' ? l2 E2 HE2]; subst. inversion HE2; subst. cbn [nth]. apply sumL_ext. intros c Hc. destruct (@dot_ixs A Dm x y HD p c Hp Hc) as [I1 I2]. rewrite (proj2 E1 _ I1), (proj2 E2 _ I2). reflexivity.
Qed.
Lemma dot_smooth Dm xs : dot_fits Dm xs -> smooth (op_dotc Dm) xs.
Proof.
  intros HF D H W HC. pose proof (curves_shapes HC) as HS. pose proof HF as (x & y & -> & HD). cbn [op_dotc o_fwd]. split.
  - generalize HS. apply near_imp. intros t E. cbn [canon sh]. apply (@dot_fwd_same Dm [x; y] (W t) HF E).
  - intros p Hp. cbn [canon sh] in Hp.
    change (chain1 (op_dotc Dm) [x; y] p D) with (chain1 (op_dot Dm) [x; y] p D). change (chain1 (op_dotc Dm) [x; y] p H) with (chain1 (op_dot Dm) [x; y] p H). change (quad (op_dotc Dm) [x; y] p D D) with (quad (op_dot Dm) [x; y] p D D).
    rewrite !(@dot_chain A RA Dm x y HD p _ Hp), (@dot_quad A RA Dm x y HD p D Hp).
    set (C := allix (permute (lc Dm) (sh x))). set (L := lix Dm (sh x) p). set (Q := rix Dm (sh x) (sh y) p).
    apply jt_ext with (phi := fun t => sumL C (fun c => at_ (nth 0 (W t) nd0) (L c) * at_ (nth 1 (W t) nd0) (Q c))).
    + generalize HS. apply near_imp. intros t E. destruct (@dot_fwd_same Dm [x; y] (W t) HF E) as [S1 V1]. rewrite canon_at by (rewrite S1; exact Hp). rewrite V1. reflexivity.
    + assert (HJ : forall c, In c C -> jt (fun t => at_ (nth 0 (W t) nd0) (L c) * at_ (nth 1 (W t) nd0) (Q c)) (at_ x (L c) * at_ y (Q c)) (at_ y (Q c) * D 0%nat (L c) + at_ x (L c) * D 1%nat (Q c))
          (at_ y (Q c) * H 0%nat (L c) + at_ x (L c) * H 1%nat (Q c) + (1 + 1) * (D 0%nat (L c) * D 1%nat (Q c)))).
      { intros c Hc. destruct (@dot_ixs A Dm x y HD p c Hp Hc) as [I1 I2].
        pose proof (curves_at HC (a := 0%nat) ltac:(cbn; lia) I1) as J0. pose proof (curves_at HC (a := 1%nat) ltac:(cbn; lia) I2) as J1. cbn [nth] in J0, J1. eapply jt_eq; [exact (@jt_mul A RA JA _ _ _ _ _ _ _ _ J0 J1)|..]; cbv beta; fold L Q; ring. }
      pose proof (@jt_sumL A RA JA ix C _ _ _ _ HJ) as HS2. eapply jt_eq; [exact HS2|..].
      * rewrite canon_at by exact Hp. reflexivity.
      * reflexivity.
      * symmetry. apply (eq_sym (@sumL_add A RA _ C _ _)).
Qed.

(* the rule is exact *)
Theorem dot_prim_sound n c2r th Dm args r : (0 < n)%nat -> als args <> [] -> (forall v, In v args -> vok n v) -> dot_fits Dm (map (@aval A) args) -> mixD Dm args ->
  dot_prim c2r th Dm args = Some r -> exists a, r = AL a /\ arg_ok n (op_dotc Dm) args a /\ jrow1 (ljac a).
Proof.
  intros Hn Hne HV (x & y & E & HD) HM H. destruct args as [|u [|v [|? ?]]]; try discriminate. cbn [map] in E. injection E as E1 E2. subst x y.
  cbn [dot_prim] in H. destruct (dot_general c2r th Dm u v) as [r0|] eqn:E0; [|discriminate]. cbn in H. injection H as <-.
  destruct (@dot_general_sound A RA n c2r th Dm u v r0 Hn Hne (HV u (or_introl eq_refl)) (HV v (or_intror (or_introl eq_refl))) HD HM E0) as (a & -> & B).
  destruct (@bilin_dot A RA n u v Dm a HD B) as (G1 & G2 & G3 & G4 & G5). cbn [canon_arg].
  exists (Lapl (canon (lx a)) (ljac a) (llap a)). split; [reflexivity|]. split; [|exact G3]. split; [|split; [|split]].
  - cbn [lx map op_dotc o_fwd]. apply canon_eq. exact G1.
  - destruct G2 as [J1 J2]. split; [exact J1|exact J2].
  - intros i p Hp. apply (G4 i p Hp).
  - intros p Hp. apply (G5 p Hp).
Qed.
Lemma dot_dense c2r th Dm args r : Forall (@dense_arg A) args -> dot_prim c2r th Dm args = Some r -> dense_arg r.
Proof.
  intros HD H. destruct args as [|u [|v [|? ?]]]; try discriminate. cbn [dot_prim] in H. destruct (dot_general c2r th Dm u v) as [r0|] eqn:E0; [|discriminate]. cbn in H. injection H as <-.
  assert (HR : dense_arg r0); [|destruct r0; exact HR]. inversion HD as [|? ? D1 HD1]; subst. inversion HD1 as [|? ? D2 _]; subst. unfold dot_general in E0. destruct (negb (is_al u) && negb (is_al v)); [injection E0 as <-; exact I|].
  match type of E0 with (let* x := ?e in _) = _ => destruct e as [u'|] eqn:EU end; [|discriminate]. cbn [bind] in E0.
  match type of E0 with (let* x := ?e in _) = _ => destruct e as [v'|] eqn:EV end; [|discriminate]. cbn [bind] in E0.
  destruct (bshape2 _ _); [|discriminate]. cbn [bind] in E0.
  assert (ES : sparse_arg u && sparse_arg v = false) by (destruct u as [a|x]; [cbn in D1 |- *; rewrite D1; reflexivity|reflexivity]). rewrite ES, andb_false_r in E0.
  pose proof (wrap_dense _ _ _ (Forall_cons _ D1 (Forall_nil _)) EU) as D1'. pose proof (wrap_dense _ _ _ (Forall_cons _ D2 (Forall_nil _)) EV) as D2'. exact (wrap_dense _ _ _ (Forall_cons _ D1' (Forall_cons _ D2' (Forall_nil _))) E0).
Qed.
End DotA.
