(* DotGen.v : model of dot_general (wrapped_functions.py:37-183) and of its specification. *)
From Verif Require Export Rules.
Set Implicit Arguments.

(* the index arithmetic of a contraction *)
(* jax.lax.dot_general dimension_numbers = ((lhs_contract, rhs_contract), (lhs_batch, rhs_batch)) *)
Record dims := Dims { lc : list nat; rc : list nat; lb : list nat; rb : list nat }.
(* wrapped_functions.py:84-85: the axes that are neither contracted nor batched, in order *)
Definition free_dims (rank : nat) (batch contract : list nat) : list nat := keep_pos rank (batch ++ contract).
(* wrapped_functions.py:84 free axes of the left operand *)
Definition lf (D : dims) (sl : shape) : list nat := free_dims (length sl) (lb D) (lc D).
(* wrapped_functions.py:85 free axes of the right operand *)
Definition rf (D : dims) (sr : shape) : list nat := free_dims (length sr) (rb D) (rc D).

(* ---- specification: lax.dot_general ---- *)
(* the axes of every operand are distinct and exist; batch and contracted axes have the same sizes on both sides *)
Definition dims_ok (D : dims) (sl sr : shape) : Prop :=
  NoDup (lb D ++ lc D) /\ (forall d, In d (lb D ++ lc D) -> d < length sl) /\
  NoDup (rb D ++ rc D) /\ (forall d, In d (rb D ++ rc D) -> d < length sr) /\
  length (lb D) = length (rb D) /\ length (lc D) = length (rc D) /\
  permute (lb D) sl = permute (rb D) sr /\ permute (lc D) sl = permute (rc D) sr.
(* the result has the batch axes, then the free axes of the left operand, then those of the right operand *)
Definition dot_shape (D : dims) (sl sr : shape) : shape := permute (lb D) sl ++ permute (lf D sl) sl ++ permute (rf D sr) sr.
(* the elements of the operands that meet at output index p and contraction index c *)
Definition lix (D : dims) (sl : shape) (p c : ix) : ix :=
  map (fun d => if mem d (lb D) then nth (pos d (lb D)) p 0 else if mem d (lc D) then nth (pos d (lc D)) c 0
                else nth (length (lb D) + pos d (lf D sl)) p 0) (seq 0 (length sl)).
(* specification: the element of the right operand *)
Definition rix (D : dims) (sl sr : shape) (p c : ix) : ix :=
  map (fun d => if mem d (rb D) then nth (pos d (rb D)) p 0 else if mem d (rc D) then nth (pos d (rc D)) c 0
                else nth (length (rb D) + length (lf D sl) + pos d (rf D sr)) p 0) (seq 0 (length sr)).

(* ---- model ---- *)
(* wrapped_functions.py:37-58 rearrange, as a gather: x[..., None, ...], transpose to batch, free, new (rhs: batch, new, free), contract,
   and reshape of the contracted axes to one (a new axis of size 1 when there are none: the product of no sizes is 1) *)
Definition rearr_perm (s : shape) (contract batch free : list nat) (other : nat) (rhs : bool) : list nat :=
  let new := seq (length s) other in batch ++ (if rhs then new ++ free else free ++ new) ++ contract.
(* wrapped_functions.py:37-58 rearrange *)
Definition rearr (s : shape) (contract batch free : list nat) (other : nat) (rhs : bool) : iop :=
  let perm := rearr_perm s contract batch free other rhs in
  let lead := batch ++ (if rhs then seq (length s) other ++ free else free ++ seq (length s) other) in
  Iop (permute lead (s ++ repeat 1 other) ++ [prod (permute contract s)])
      (fun p => let q := removelast p ++ unravel_ix (permute contract s) (last p 0) in
                (0, map (fun d => nth (pos d perm) q 0) (seq 0 (length s)))).
(* jnp's rank promotion (lax.broadcast_to_rank): leading axes of size one *)
Definition promote_iop (s : shape) (k : nat) : iop := Iop (repeat 1 k ++ s) (fun p => (0, skipn k p)).
(* wrapped_functions.py:139-150: batch axes in increasing order *)
Fixpoint sortedb (l : list nat) : bool := match l with x :: ((y :: _) as l') => (x <=? y) && sortedb l' | _ => true end.

Section DotGen.
Context {A : Type} {RA : CRing A}.
Add Ring Aring_DG : (@rth A RA).
Open Scope cr_scope.
Notation aval := (@aval A).

(* wrapped_functions.py:166-183: dot_last with in_axes=-1 and DOT_PRODUCT | JOIN_JVP | SPARSE_JHJ *)
Definition dotlast_rule : rule A := Rule (Fn op_dotlast None None) 827%Z (Some [(-1)%Z]) None true.
(* operands of different rank are promoted by jnp before the multiplication *)
Definition promote (c2r : bool) (th : Z) (k : nat) (v : arg A) : option (arg A) :=
  match k with O => Some v | _ => wrap_fl (index_rule (promote_iop (sh (aval v)) k) true true) c2r th [v] end.
(* wrapped_functions.py:125-136 fwd_lapl_mul_sum: forward_laplacian(lambda x, y: (x * y).sum(dims)) evaluates the two registered rules in turn *)
Definition mul_sum (c2r : bool) (th : Z) (axes : nat -> list nat) (u v : arg A) : option (arg A) :=
  let nl := ndim (aval u) in let nr := ndim (aval v) in
  let* u' := promote c2r th (nr - nl) u in
  let* v' := promote c2r th (nl - nr) v in
  let* m := wrap_fl mul_rule c2r th [u'; v'] in
  let ax := axes (ndim (aval m)) in
  wrap_fl (sum_rule (map Z.of_nat ax) ax) c2r th [m].
(* wrapped_functions.py:139-150: axes counted from the end *)
Definition negdims (rank : nat) (l : list nat) : list Z := map (fun d => (Z.of_nat d - Z.of_nat rank)%Z) l.
(* equality of tuples *)
Definition zlist_eqb (a b : list Z) : bool := if list_eq_dec Z.eq_dec a b then true else false.
(* equality of tuples *)
Definition nlist_eqb (a b : list nat) : bool := if list_eq_dec Nat.eq_dec a b then true else false.
(* wrapped_functions.py:139-150: the test for skipping the transpositions *)
Definition special (D : dims) (sl sr : shape) : bool :=
  zlist_eqb (negdims (length sl) (lc D)) (negdims (length sr) (rc D)) && zlist_eqb (negdims (length sl) (lb D)) (negdims (length sr) (rb D)) &&
  nlist_eqb (lf D sl) (seq 0 (length (lf D sl))) && nlist_eqb (rf D sr) (seq 0 (length (rf D sr))) && sortedb (lb D) && sortedb (rb D).
(* wrapped_functions.py:87-92: isinstance(v, FwdLaplArray) and v.is_jacobian_weak *)
Definition sparse_arg (v : arg A) : bool := match v with AL a => weak (ljac a) | AX _ => false end.
(* textbook dot_general and its derivatives: sum over the contraction index *)
Definition op_dot (D : dims) : op A :=
  let X (xs : list (nd A)) := nth 0%nat xs nd0 in let Y (xs : list (nd A)) := nth 1%nat xs nd0 in
  let L xs p c := lix D (sh (X xs)) p c in let R xs p c := rix D (sh (X xs)) (sh (Y xs)) p c in
  let S (xs : list (nd A)) F := sumL (allix (permute (lc D) (sh (X xs)))) F in
  Op (fun xs => Nd (dot_shape D (sh (X xs)) (sh (Y xs))) (fun p => S xs (fun c => at_ (X xs) (L xs p c) * at_ (Y xs) (R xs p c))))
     (fun xs p a q => match a with
        | O => S xs (fun c => if ixeqb q (L xs p c) then at_ (Y xs) (R xs p c) else 0)
        | S O => S xs (fun c => if ixeqb q (R xs p c) then at_ (X xs) (L xs p c) else 0)
        | _ => 0 end)
     (fun xs p a q b r => match a, b with
        | O, S O => S xs (fun c => if ixeqb q (L xs p c) && ixeqb r (R xs p c) then 1 else 0)
        | S O, O => S xs (fun c => if ixeqb q (R xs p c) && ixeqb r (L xs p c) then 1 else 0)
        | _, _ => 0 end).
(* wrapped_functions.py:61-183 dot_general.  precision and preferred_element_type do not change exact values. *)
Definition dot_general (c2r : bool) (th : Z) (D : dims) (u v : arg A) : option (arg A) :=
  let sl := sh (aval u) in let sr := sh (aval v) in
  if negb (is_al u) && negb (is_al v) then Some (AX (o_fwd (op_dot D) [aval u; aval v]))                                  (* l.71-74 *)
  else
    let* lft := wrap_fl (index_rule (rearr sl (lc D) (lb D) (lf D sl) (length (rf D sr)) false) true true) c2r th [u] in  (* l.94-103 *)
    let* rgt := wrap_fl (index_rule (rearr sr (rc D) (rb D) (rf D sr) (length (lf D sl)) true) true true) c2r th [v] in  (* l.104-114 *)
    let* inter := bshape2 (sh (aval lft)) (sh (aval rgt)) in                                                           (* l.122 *)
    let in_size := Nat.max (prod (sh (aval lft))) (prod (sh (aval rgt))) in
    if Nat.eqb (prod inter) in_size && (sparse_arg u && sparse_arg v) then                                                (* l.138 *)
      if special D sl sr then mul_sum c2r th (fun _ => lc D) u v                                                          (* l.144-157 *)
      else mul_sum c2r th (fun rank => [(rank - 1)%nat]) lft rgt                                                       (* l.158 *)
    else wrap_fl dotlast_rule c2r th [lft; rgt].                                                                       (* l.166-183 *)

(* ---- sums of products ---- *)
(* r is the array of shape so whose element p is the sum over (q, s) in T p of u[q] * v[s], with its derivatives (Leibniz' rule) *)
Definition bilin (n : nat) (u v : arg A) (so : shape) (T : ix -> list (ix * ix)) (r : lapl A) : Prop :=
  sh (lx r) = so /\ awf n r /\ jrow1 (ljac r) /\ (forall p q s, inb p so -> In (q, s) (T p) -> inb q (sh (aval u)) /\ inb s (sh (aval v))) /\
  (forall p, inb p so -> at_ (lx r) p = sumL (T p) (fun t => at_ (aval u) (fst t) * at_ (aval v) (snd t))) /\
  (forall i p, inb p so -> jent (ljac r) i p = sumL (T p) (fun t => at_ (aval v) (snd t) * vjac u i (fst t) + at_ (aval u) (fst t) * vjac v i (snd t))) /\
  (forall p, inb p so -> at_ (llap r) p = sumL (T p) (fun t => at_ (aval v) (snd t) * vlap u (fst t) + at_ (aval u) (fst t) * vlap v (snd t)
      + (1 + 1) * sumn n (fun i => vjac u i (fst t) * vjac v i (snd t)))).

Lemma bsh2 s t : bshapes [s; t] = bshape2 s t.
Proof. unfold bshapes. cbn [fold_left]. change (bshape2 [] s) with (option_map (@rev nat) (Some (rev s))). cbn [option_map]. rewrite rev_involutive. reflexivity. Qed.

(* lax.mul *)
Lemma bilin_mul n c2r th u v r so : (0 < n)%nat -> als [u; v] <> [] -> vok n u -> vok n v -> bshape2 (sh (aval u)) (sh (aval v)) = Some so ->
  wrap_fl mul_rule c2r th [u; v] = Some r -> exists a, r = AL a /\ bilin n u v so (fun p => [(bproj (sh (aval u)) p, bproj (sh (aval v)) p)]) a.
Proof.
  intros Hn Hne Hu Hv HB H. assert (HB' : bshapes [sh (aval u); sh (aval v)] <> None) by (rewrite bsh2, HB; discriminate).
  destruct (@mul_sound _ _ n c2r th u v r Hn Hne Hu Hv HB' H) as (a & -> & (H1 & H2 & H3 & H4) & H5). exists a. split; [reflexivity|].
  assert (ES : sh (o_fwd op_mul (map aval [u; v])) = so).
  { cbn [op_mul ew_op o_fwd sh map]. unfold ew_shape. cbn [map]. rewrite bsh2, HB. reflexivity. }
  rewrite ES in H3, H4. destruct (bshape2_ub _ _ HB) as [U1 U2].
  assert (Iu : forall p, inb p so -> inb (bproj (sh (aval u)) p) (sh (aval u))) by (intros p Hp; apply (@bproj_inb _ so); auto).
  assert (Iv : forall p, inb p so -> inb (bproj (sh (aval v)) p) (sh (aval v))) by (intros p Hp; apply (@bproj_inb _ so); auto).
  assert (CH : forall p w, inb p so -> chain1 op_mul [aval u; aval v] p w = at_ (aval v) (bproj (sh (aval v)) p) * w 0%nat (bproj (sh (aval u)) p) + at_ (aval u) (bproj (sh (aval u)) p) * w 1%nat (bproj (sh (aval v)) p)).
  { intros p w Hp. unfold chain1. cbn [length]. rewrite sumn2. cbn [nth]. f_equal.
    - rewrite (@sum_at _ _ _ _ _ (Iu p Hp)); [cbn; rewrite ixeqb_refl; reflexivity|]. intros q Hq Hx. cbn. rewrite ixeqb_neq by auto. ring.
    - rewrite (@sum_at _ _ _ _ _ (Iv p Hp)); [cbn; rewrite ixeqb_refl; reflexivity|]. intros q Hq Hx. cbn. rewrite ixeqb_neq by auto. ring. }
  assert (XS : xs_of (map (@lift A RA) [u; v]) = [aval u; aval v]) by (rewrite xs_lift; reflexivity).
  split; [|split; [exact H2|split; [exact H5|split; [|split; [|split]]]]].
  - rewrite H1. exact ES.
  - intros p q s Hp [E|[]]. injection E as <- <-. auto.
  - intros p Hp. rewrite H1. cbn [sumL map fst snd]. cbn. ring.
  - intros i p Hp. rewrite H3 by auto. unfold dspec. rewrite XS, CH by auto. cbn [sumL fst snd map nth]. unfold vjac. ring.
  - intros p Hp. rewrite H4 by auto. unfold lspec. rewrite XS, CH by auto. cbn [sumL fst snd map nth]. unfold vlap.
    rewrite <- merged_tt. cbn [map]. rewrite hspec_mul.
    + rewrite !lift_x. unfold vjac. ring.
    + rewrite !lift_x. exact HB'.
    + rewrite !lift_x. cbn [op_mul ew_op o_fwd sh]. unfold ew_shape. cbn [map]. rewrite bsh2, HB. exact Hp.
Qed.

(* reduce_sum over any distinct axes; over no axes it is the identity *)
Lemma norm_nat n l : norm_axes n (map Z.of_nat l) = l.
Proof. unfold norm_axes. rewrite map_map. rewrite <- (map_id l) at 2. apply map_ext_in. intros z Hz. destruct (Z.ltb_spec (Z.of_nat z) 0); lia. Qed.
Lemma sum_any_sound n ax c2r th a r : (0 < n)%nat -> vok n (AL a) -> NoDup ax -> (forall d, In d ax -> (d < ndim (lx a))%nat) ->
  wrap_fl (sum_rule (map Z.of_nat ax) ax) c2r th [AL a] = Some r -> exists b, r = AL b /\ arg_ok n (op_sum ax) [AL a] b /\ jrow1 (ljac b).
Proof.
  intros Hn Hv Hnd Hlt H. destruct ax as [|d0 ax'].
  - assert (Hn1 : als [AL a] <> []) by discriminate.
    refine (@wrap_sound _ _ n (sum_rule [] []) c2r th [AL a] _ _ r Hn1 (canon_none _ _) (canon_none _ _) _ _ H).
    + intros t Ht. refine (@jvp_fn_sound _ _ n (Fn (op_sum []) (Some []) None) _ [] th SUMMATION None [a] t Hn _ (merge_of_ok [true]) _ _ _ _ Ht); try discriminate; auto.
      * intros b [<-|[]]. exact Hv.
      * intros b Hb. cbn in Hb. assert (b = 0%nat) by lia. subst b. unfold struct_at. cbn [axes_of nth xs_of map]. unfold elementwise_at. cbn [nth].
        assert (EP : forall q, length q = ndim (lx a) -> permute (keep_pos (ndim (lx a)) []) q = q) by (intros q Hq; rewrite keep_pos_nil, <- Hq; apply permute_id).
        assert (ES : sh (o_fwd (merged (op_sum (A:=A) []) (merge_of [true]) 1 []) [lx a]) = sh (lx a)).
        { change (permute (keep_pos (ndim (lx a)) []) (sh (lx a)) = sh (lx a)). apply EP. reflexivity. }
        cbn [f_op length]. rewrite ES. split; [apply bto_refl|]. intros p q Hp Hq Hx.
        change ((if ixeqb (permute (keep_pos (ndim (lx a)) []) q) p then 1 else 0) = 0). rewrite EP by (apply inb_length; exact Hq). rewrite ixeqb_neq; auto. intros ->. apply Hx. rewrite bproj_same; auto.
      * exact I.
    + intros h Eh. cbn in Eh. injection Eh as <-. apply linear_ok. intros p b q c s _ _ _ _ _. reflexivity.
  - refine (_ (@sum_sound _ _ n (map Z.of_nat (d0 :: ax')) c2r th a r Hn Hv _ _)); try discriminate.
    + cbv zeta. rewrite norm_nat. intros G. exact (G H).
    + unfold ax_ok. cbv zeta. rewrite norm_nat. auto.
Qed.
Lemma bilin_sum n c2r th u v m T ax r : (0 < n)%nat -> NoDup ax -> (forall d, In d ax -> (d < ndim (lx m))%nat) -> bilin n u v (sh (lx m)) T m ->
  wrap_fl (sum_rule (map Z.of_nat ax) ax) c2r th [AL m] = Some r ->
  exists b, r = AL b /\ bilin n u v (permute (keep_pos (ndim (lx m)) ax) (sh (lx m))) (fun p => flat_map (fun j => T (weave (ndim (lx m)) ax p j)) (allix (permute ax (sh (lx m))))) b.
Proof.
  intros Hn Hnd Hlt (_ & B2 & B3 & B4 & B5 & B6 & B7) H.
  assert (Hv : vok n (AL m)) by (split; auto).
  destruct (@sum_any_sound n ax c2r th m r Hn Hv Hnd Hlt H) as (b & -> & (H1 & H2 & H3 & H4) & H5). exists b. split; [reflexivity|].
  set (so := permute (keep_pos (ndim (lx m)) ax) (sh (lx m))).
  assert (ES : sh (o_fwd (op_sum ax) (map aval [AL m])) = so) by reflexivity. rewrite ES in H3, H4.
  assert (CH : forall p w, inb p so -> chain1 (op_sum ax) [lx m] p w = sumL (allix (permute ax (sh (lx m)))) (fun j => w 0%nat (weave (ndim (lx m)) ax p j))).
  { intros p w Hp. unfold chain1. cbn [length]. rewrite sumn1. cbn [nth]. apply (@sum_chain _ _ (op_sum ax) (lx m) ax p (w 0%nat)); auto. apply sum_is_sum. }
  assert (WI : forall p j, inb p so -> In j (allix (permute ax (sh (lx m)))) -> inb (weave (ndim (lx m)) ax p j) (sh (lx m))).
  { intros p j Hp Hj. apply allix_spec in Hj. apply weave_inb; auto. }
  split; [|split; [exact H2|split; [exact H5|split; [|split; [|split]]]]].
  - rewrite H1. exact ES.
  - intros p q s Hp Hin. apply in_flat_map in Hin. destruct Hin as (j & Hj & Hin). apply (B4 (weave (ndim (lx m)) ax p j)); auto.
  - intros p Hp. rewrite H1. change (at_ (o_fwd (op_sum ax) (map aval [AL m])) p) with (sumL (allix (permute ax (sh (lx m)))) (fun j => at_ (lx m) (weave (ndim (lx m)) ax p j))).
    rewrite sumL_flat_map. apply sumL_ext. intros j Hj. apply B5. auto.
  - intros i p Hp. rewrite H3 by auto. unfold dspec. rewrite xs_lift. cbn [map]. rewrite CH by auto. rewrite sumL_flat_map. apply sumL_ext. intros j Hj. cbn [nth lift]. apply B6. auto.
  - intros p Hp. rewrite H4 by auto. unfold lspec. rewrite xs_lift. cbn [map]. rewrite CH by auto. rewrite sumL_flat_map.
    rewrite (@hspec_zero _ _ n (op_sum ax)) by (intros; reflexivity). transitivity (sumL (allix (permute ax (sh (lx m)))) (fun j => at_ (llap m) (weave (ndim (lx m)) ax p j))); [cbn [nth lift]; ring|].
    apply sumL_ext. intros j Hj. apply B7. auto.
Qed.

(* dot_last *)
Lemma canon_last (X : Type) (r : X -> nat) (l : list X) : (forall x, In x l -> (0 < r x)%nat) ->
  sequence (map (fun a => canon_axes (r a) (Some [(-1)%Z])) l) = Some (map (fun a => [(r a - 1)%nat]) l).
Proof.
  intros H. induction l as [|x l IH]; cbn [map sequence]; auto. rewrite IH by (intros y Hy; apply H; right; auto).
  pose proof (H x (or_introl eq_refl)) as Hx. unfold canon_axes. cbn [forallb]. destruct (Z.leb_spec (- Z.of_nat (r x)) (-1)); [|lia]. destruct (Z.ltb_spec (-1) (Z.of_nat (r x))); [|lia]. cbn [andb].
  unfold norm_axes. cbn [map]. destruct (Z.ltb_spec (-1) 0); [|lia]. assert (E : Z.to_nat (-1 + Z.of_nat (r x)) = (r x - 1)%nat) by lia. rewrite E. reflexivity.
Qed.
Lemma norm_last n : (0 < n)%nat -> norm_axes n [(-1)%Z] = [(n - 1)%nat].
Proof. intros H. unfold norm_axes. cbn [map]. destruct (Z.ltb_spec (-1) 0); [|lia]. f_equal. lia. Qed.
Lemma bilin_dotlast n c2r th u v r px py K so : (0 < n)%nat -> als [u; v] <> [] -> vok n u -> vok n v ->
  sh (aval u) = px ++ [K] -> sh (aval v) = py ++ [K] -> length px = length py -> bshape2 px py = Some so ->
  wrap_fl dotlast_rule c2r th [u; v] = Some r ->
  exists a, r = AL a /\ bilin n u v so (fun p => map (fun k => (bproj px p ++ [k], bproj py p ++ [k])) (seq 0 K)) a.
Proof.
  intros Hn Hne Hu Hv Eu Ev HL HB H.
  assert (HBn : bshape2 px py <> None) by congruence. assert (HB' : bshapes [px; py] <> None) by (rewrite bsh2; exact HBn).
  destruct (bshape2_ub _ _ HB) as [U1 U2].
  assert (Nu : (0 < ndim (aval u))%nat) by (unfold ndim; rewrite Eu, app_length; cbn; lia).
  assert (Nv : (0 < ndim (aval v))%nat) by (unfold ndim; rewrite Ev, app_length; cbn; lia).
  assert (Lu : (ndim (aval u) - 1)%nat = length px) by (unfold ndim; rewrite Eu, app_length; cbn; lia).
  assert (Lv : (ndim (aval v) - 1)%nat = length py) by (unfold ndim; rewrite Ev, app_length; cbn; lia).
  assert (HV : forall w, In w [u; v] -> vok n w) by (intros w [<-|[<-|[]]]; auto).
  assert (HND : forall w, In w [u; v] -> (0 < ndim (aval w))%nat) by (intros w [<-|[<-|[]]]; auto).
  assert (Na : forall a, In a (als [u; v]) -> (0 < ndim (lx a))%nat) by (intros a Ha; apply In_als in Ha; apply (HND _ Ha)).
  assert (Ne : forall x, In x (exs [u; v]) -> (0 < ndim x)%nat).
  { intros x Hx. destruct u as [u|u], v as [v|v]; cbn [exs flat_map app In] in Hx; intuition (subst; auto). }
  assert (ESO : sh (o_fwd op_dotlast [aval u; aval v]) = so) by (cbn [op_dotlast o_fwd sh map]; rewrite Eu, Ev, !removelast_snoc, bsh2, HB; reflexivity).
  destruct (@wrap_sound _ _ n dotlast_rule c2r th [u; v] _ _ r Hne (@canon_last _ (fun a => ndim (lx a)) (als [u; v]) Na) (@canon_last _ (fun x => ndim x) (exs [u; v]) Ne)) as (a & -> & (H1 & H2 & H3 & H4) & H5).
  - (* first order *)
    intros t Ht. cbn [r_fn dotlast_rule f_op].
    refine (@jvp_fn_sound _ _ n (Fn op_dotlast None None) _ (exs [u; v]) th 827%Z (Some [(-1)%Z]) (als [u; v]) t Hn Hne (merge_args_ok [u; v]) (@vok_als _ _ n [u; v] HV) _ I _ Ht).
    + intros a Ha. unfold struct_at. cbn [axes_of f_op f_kwaxes]. destruct (@at_pos _ _ [u; v] a Ha) as [E HP]. set (P := posof (merge_of (mask_of [u; v])) (length (als [u; v])) (length (exs [u; v])) a) in *.
      assert (EX : nth P (map aval [u; v]) nd0 = nth a (xs_of (als [u; v])) nd0).
      { rewrite <- xs_lift, !xs_at' by (rewrite ?map_length; auto). rewrite E. reflexivity. }
      assert (HA : nth a (xs_of (als [u; v])) nd0 = aval u /\ P = 0%nat \/ nth a (xs_of (als [u; v])) nd0 = aval v /\ P = 1%nat).
      { rewrite <- EX. destruct P as [|[|P']]; cbn [map nth length] in *; auto. lia. }
      rewrite norm_last by (destruct HA as [[-> _]|[-> _]]; auto).
      split; [repeat constructor; intros []|]. split; [intros d [<-|[]]; destruct HA as [[-> _]|[-> _]]; lia|]. change (has SUMMATION 827%Z) with false. cbv iota.
      unfold reduces_at. rewrite merged_fwd. cbn [merged o_d]. fold P. rewrite merge_avals. cbn [map].
      assert (KP : forall (x : nd A) pre, sh x = pre ++ [K] -> keep_pos (ndim x) [(ndim x - 1)%nat] = seq 0 (length pre)).
      { intros x pre Ex. unfold ndim. rewrite Ex, app_length. cbn [length]. rewrite Nat.add_1_r. replace (S (length pre) - 1)%nat with (length pre) by lia. apply keepax_last. }
      assert (PS : forall (pre : list nat) k, permute (seq 0 (length pre)) (pre ++ [k]) = pre) by (intros; apply permute_seq_app).
      intros p q Hp Hq Hx. destruct HA as [[EA EP]|[EA EP]]; rewrite EA in *; rewrite EP; cbn [op_dotlast o_d nth].
      * rewrite (KP _ px Eu) in Hx. rewrite Eu in Hq, Hx |- *. rewrite removelast_snoc. destruct (@snoc_inb _ _ _ Hq) as (q0 & j & -> & Hq0 & Hj). rewrite removelast_snoc. rewrite ixeqb_neq; auto.
        rewrite PS in Hx. rewrite <- (inb_length Hq0), PS in Hx. exact Hx.
      * rewrite (KP _ py Ev) in Hx. rewrite Ev in Hq, Hx |- *. rewrite removelast_snoc. destruct (@snoc_inb _ _ _ Hq) as (q0 & j & -> & Hq0 & Hj). rewrite removelast_snoc. rewrite ixeqb_neq; auto.
        rewrite PS in Hx. rewrite <- (inb_length Hq0), PS in Hx. exact Hx.
    + do 4 right. intros a Ha. left. discriminate.
  - (* second order *)
    intros hh E. cbn [r_fn dotlast_rule f_op r_fl r_custom] in *.
    assert (EL : merge_of (mask_of [u; v]) (map (fun a => [(ndim (lx a) - 1)%nat]) (als [u; v])) (map (fun x => [(ndim x - 1)%nat]) (exs [u; v])) = lasts [aval u; aval v]).
    { destruct u, v; reflexivity. }
    assert (HS : setup n op_dotlast (merge_of (mask_of [u; v])) (als [u; v]) (map (fun a => [(ndim (lx a) - 1)%nat]) (als [u; v])) (exs [u; v]) (map (fun x => [(ndim x - 1)%nat]) (exs [u; v]))).
    { constructor; auto.
      - intros a Ha. apply (@vok_als _ _ n [u; v] HV a Ha).
      - apply merge_args_ok.
      - split; [unfold xs_of; rewrite !map_length; reflexivity|]. intros i Hi. rewrite xs_length in Hi. rewrite nth_map_in with (dx := la0) by exact Hi. rewrite xs_at' by exact Hi. pose proof (Na _ (nth_In _ la0 Hi)). split; [repeat constructor; intros []|intros d [<-|[]]; lia].
      - split; [rewrite map_length; reflexivity|]. intros i Hi. rewrite nth_map_in with (dx := nd0) by exact Hi. pose proof (Ne _ (nth_In _ nd0 Hi)). split; [repeat constructor; intros []|intros d [<-|[]]; lia].
      - rewrite EL, merge_avals. apply (@dotlast_batched _ _ (aval u) (aval v) px py K Eu Ev HBn). }
    refine (@jhj_trace_sound _ _ n op_dotlast c2r 827%Z (exs [u; v]) _ _ _ th (als [u; v]) hh HS _ _ _ E).
    + rewrite merge_avals. cbn [map]. split; [intros X; discriminate X|]. split; [intros _ p q s _ _ _; cbn [op_dotlast o_h]; destruct (_ && _ && _); reflexivity|]. intros _ a Ha p q s _ _ _. cbn [length] in Ha. cbn [op_dotlast o_h]. destruct a as [|[|a]]; try lia; destruct (_ && _ && _); reflexivity.
    + intros _ _ HLen. split; [reflexivity|]. destruct u as [u|u], v as [v|v]; cbn in HLen; try (exfalso; apply HLen; reflexivity); [|exfalso; apply Hne; reflexivity].
      split; [exact (@dotlast_core _ _ mgtt (lx u) (lx v) px py K (merge_of_ok [true; true]) Eu Ev)|].
      intros _. cbn [aval] in *. split; [reflexivity|]. intros _. split; [reflexivity|]. exists (length px). split.
      * intros x [<-|[<-|[]]]; lia.
      * right. exact (@dotlast_scalar _ _ u v px py K Eu Ev HL HBn).
    + intros X; discriminate X.
  - exact H.
  - exists a. split; [reflexivity|]. cbn [r_fn dotlast_rule f_op map] in *. rewrite ESO in H3, H4.
    assert (Iu : forall p, inb p so -> inb (bproj px p) px) by (intros p Hp; apply (@bproj_inb _ so); auto).
    assert (Iv : forall p, inb p so -> inb (bproj py p) py) by (intros p Hp; apply (@bproj_inb _ so); auto).
    assert (CH : forall p w, inb p so -> chain1 op_dotlast [aval u; aval v] p w = sumn K (fun k => at_ (aval v) (bproj py p ++ [k]) * w 0%nat (bproj px p ++ [k]) + at_ (aval u) (bproj px p ++ [k]) * w 1%nat (bproj py p ++ [k]))).
    { intros p w Hp. unfold chain1. cbn [length]. rewrite sumn2. cbn [nth]. rewrite Eu, Ev. unfold sumn at 1. rewrite sumL_add. fold (sumn K (fun k => at_ (aval v) (bproj py p ++ [k]) * w 0%nat (bproj px p ++ [k]))). fold (sumn K (fun k => at_ (aval u) (bproj px p ++ [k]) * w 1%nat (bproj py p ++ [k]))). f_equal.
      - rewrite (@sum_snoc _ _ px K (bproj px p)); auto.
        + apply sumn_ext. intros k Hk. cbn [op_dotlast o_d nth]. rewrite Eu, Ev, !removelast_snoc, last_last, ixeqb_refl. reflexivity.
        + intros q k Hq Hk Hx. cbn [op_dotlast o_d nth]. rewrite Eu, !removelast_snoc, ixeqb_neq by auto. ring.
      - rewrite (@sum_snoc _ _ py K (bproj py p)); auto.
        + apply sumn_ext. intros k Hk. cbn [op_dotlast o_d nth]. rewrite Eu, Ev, !removelast_snoc, last_last, ixeqb_refl. reflexivity.
        + intros q k Hq Hk Hx. cbn [op_dotlast o_d nth]. rewrite Ev, !removelast_snoc, ixeqb_neq by auto. ring. }
    split; [|split; [exact H2|split; [exact H5|split; [|split; [|split]]]]].
    + rewrite H1. exact ESO.
    + intros p q s Hp Hin. apply in_map_iff in Hin. destruct Hin as (k & E & Hk). apply in_seq in Hk. injection E as <- <-. rewrite Eu, Ev. split; (apply inb_app; [auto|]; constructor; [lia|constructor]).
    + intros p Hp. rewrite H1. cbn [op_dotlast o_fwd at_ nth]. rewrite Eu, Ev, !removelast_snoc, last_last. rewrite sumL_map. reflexivity.
    + intros i p Hp. rewrite H3 by auto. unfold dspec. change [lift u; lift v] with (map (@lift A RA) [u; v]). rewrite xs_lift. cbn [map]. rewrite CH by auto. rewrite sumL_map. reflexivity.
    + intros p Hp. rewrite H4 by auto. unfold lspec. change [lift u; lift v] with (map (@lift A RA) [u; v]). rewrite xs_lift. cbn [map]. rewrite CH by auto. rewrite sumL_map.
      rewrite <- merged_tt. rewrite (@hspec_dotlast _ _ n (lift u) (lift v) px py K p); rewrite ?lift_x; auto.
      2:{ rewrite ESO. exact Hp. }
      unfold sumn.
      rewrite (@sumL_swap _ _ _ _ (seq 0 n) (seq 0 K) (fun i k => jent (ljac (lift u)) i (bproj px p ++ [k]) * jent (ljac (lift v)) i (bproj py p ++ [k]))).
      rewrite <- sumL_scale, <- sumL_add. reflexivity.
Qed.

(* ---- copies: every element of u' is an element of u, with its derivatives ---- *)
Definition follows (n : nat) (so : shape) (sg : ix -> ix) (u u' : arg A) : Prop :=
  sh (aval u') = so /\ vok n u' /\ is_al u' = is_al u /\ forall q, inb q so -> inb (sg q) (sh (aval u)) /\
    at_ (aval u') q = at_ (aval u) (sg q) /\ (forall i, vjac u' i q = vjac u i (sg q)) /\ vlap u' q = vlap u (sg q).
Lemma follows_id n u : vok n u -> follows n (sh (aval u)) (fun q => q) u u.
Proof. intros H. split; [reflexivity|]. split; [exact H|]. split; [reflexivity|]. auto. Qed.
Lemma index_follows n g ok filled c2r th u u' : (0 < n)%nat -> vok n u -> iop_wf g [sh (aval u)] ->
  wrap_fl (index_rule g ok filled) c2r th [u] = Some u' -> follows n (i_shape g) (fun q => snd (i_src g q)) u u'.
Proof.
  intros Hn Hu Hg H.
  assert (HG : forall q, inb q (i_shape g) -> fst (i_src g q) = 0%nat /\ inb (snd (i_src g q)) (sh (aval u))).
  { intros q Hq. destruct (Hg q Hq) as [G1 G2]. cbn in G1. assert (E : fst (i_src g q) = 0%nat) by lia. rewrite E in G2. auto. }
  destruct u as [a|x].
  - assert (HV : forall w, In w [AL a] -> vok n w) by (intros w [<-|[]]; auto). assert (HM : mixI (als [AL a])) by (right; left; cbn; lia).
    destruct (@index_sound _ _ n g ok filled c2r th [AL a] u' Hn ltac:(discriminate) HV Hg HM H) as (b & -> & (H1 & H2 & H3 & H4) & H5).
    assert (CH : forall p w, inb p (i_shape g) -> chain1 (iop_op g) [lx a] p w = w 0%nat (snd (i_src g p))).
    { intros p w Hp. destruct (HG p Hp) as [E0 I0]. unfold chain1. cbn [length]. rewrite sumn1. cbn [nth]. cbn [iop_op o_d]. destruct (i_src g p) as [k q]. cbn [fst snd] in *. subst k.
      rewrite (@sum_at _ _ _ q); auto; [cbn [Nat.eqb andb]; rewrite ixeqb_refl; ring|]. intros q' Hq' Hx. rewrite ixeqb_neq by congruence. cbn [Nat.eqb andb]. ring. }
    split; [cbn [Verif.Wrap.aval]; rewrite H1; reflexivity|]. split; [split; auto|]. split; [reflexivity|]. intros q Hq. destruct (HG q Hq) as [E0 I0]. split; [exact I0|]. split; [|split].
    + cbn [Verif.Wrap.aval]. rewrite H1. cbn [iop_op o_fwd iop_fwd at_]. destruct (i_src g q) as [k t]. cbn [fst snd] in *. subst k. reflexivity.
    + intros i. change (jent (ljac b) i q = jent (ljac a) i (snd (i_src g q))). rewrite H3 by auto. unfold dspec. rewrite xs_lift. cbn [map]. rewrite CH by auto. reflexivity.
    + change (at_ (llap b) q = at_ (llap a) (snd (i_src g q))). rewrite H4 by auto. unfold lspec. rewrite xs_lift. cbn [map]. rewrite CH by auto. rewrite hspec_zero by (intros; reflexivity). cbn [nth lift]. ring.
  - rewrite (@wrap_plain _ _ _ _ _ [AX x] u' eq_refl H). split; [reflexivity|]. split; [exact I|]. split; [reflexivity|]. intros q Hq. destruct (HG q Hq) as [E0 I0]. split; [exact I0|]. split; [|split].
    + cbn [map Verif.Wrap.aval]. cbn. destruct (i_src g q) as [k t]. cbn [fst snd] in *. subst k. reflexivity.
    + intros i. unfold vjac. cbn [lift ljac]. rewrite !zero_jent. reflexivity.
    + unfold vlap. reflexivity.
Qed.
Lemma bilin_follows n u v u' v' su sv sg tau so T r : follows n su sg u u' -> follows n sv tau v v' -> bilin n u' v' so T r ->
  bilin n u v so (fun p => map (fun t => (sg (fst t), tau (snd t))) (T p)) r.
Proof.
  intros (F1 & _ & _ & F2) (G1 & _ & _ & G2) (B1 & B2 & B3 & B4 & B5 & B6 & B7). rewrite F1, G1 in B4.
  assert (HT : forall p t, inb p so -> In t (T p) -> inb (fst t) su /\ inb (snd t) sv) by (intros p [q s] Hp Hin; apply (B4 p q s Hp Hin)).
  split; [exact B1|split; [exact B2|split; [exact B3|split; [|split; [|split]]]]].
  - intros p q s Hp Hin. apply in_map_iff in Hin. destruct Hin as (t & E & Hin). injection E as <- <-. destruct (HT p t Hp Hin). split; [apply F2|apply G2]; auto.
  - intros p Hp. rewrite B5 by auto. rewrite sumL_map. apply sumL_ext. intros t Ht. destruct (HT p t Hp Ht) as [I1 I2]. cbn [fst snd].
    destruct (F2 _ I1) as (_ & E1 & E2 & E3). destruct (G2 _ I2) as (_ & E4 & E5 & E6). rewrite E1, E4. reflexivity.
  - intros i p Hp. rewrite B6 by auto. rewrite sumL_map. apply sumL_ext. intros t Ht. destruct (HT p t Hp Ht) as [I1 I2]. cbn [fst snd].
    destruct (F2 _ I1) as (_ & E1 & E2 & E3). destruct (G2 _ I2) as (_ & E4 & E5 & E6). rewrite E1, E4, E2, E5. reflexivity.
  - intros p Hp. rewrite B7 by auto. rewrite sumL_map. apply sumL_ext. intros t Ht. destruct (HT p t Hp Ht) as [I1 I2]. cbn [fst snd].
    destruct (F2 _ I1) as (_ & E1 & E2 & E3). destruct (G2 _ I2) as (_ & E4 & E5 & E6). rewrite E1, E4, E3, E6. f_equal. f_equal. apply sumn_ext. intros i _. rewrite E2, E5. reflexivity.
Qed.
(* the same sums, differently enumerated *)
Lemma bilin_ext n u v so T T' r : (forall p, inb p so -> Permutation (T p) (T' p)) -> bilin n u v so T r -> bilin n u v so T' r.
Proof.
  intros HP (B1 & B2 & B3 & B4 & B5 & B6 & B7). split; [exact B1|split; [exact B2|split; [exact B3|split; [|split; [|split]]]]].
  - intros p q s Hp Hin. apply (B4 p q s Hp). apply (Permutation_in _ (Permutation_sym (HP p Hp))). exact Hin.
  - intros p Hp. rewrite B5 by auto. apply sumL_perm. auto.
  - intros i p Hp. rewrite B6 by auto. apply sumL_perm. auto.
  - intros p Hp. rewrite B7 by auto. apply sumL_perm. auto.
Qed.
Lemma pair_sum (X : Type) (su sv : shape) (C : list X) (L R : X -> ix) (F G : ix -> A) : (forall c, In c C -> inb (L c) su /\ inb (R c) sv) ->
  sumL (allix su) (fun q => sumL (allix sv) (fun r => sumL C (fun c => if ixeqb q (L c) && ixeqb r (R c) then 1 else 0) * (F q * G r))) = sumL C (fun c => F (L c) * G (R c)).
Proof.
  intros HI. transitivity (sumL (allix su) (fun q => sumL C (fun c => sumL (allix sv) (fun r => (if ixeqb q (L c) && ixeqb r (R c) then 1 else 0) * (F q * G r))))).
  { apply sumL_ext. intros q _. rewrite sumL_swap. apply sumL_ext. intros r _. rewrite sumL_scale_r. reflexivity. }
  rewrite sumL_swap. apply sumL_ext. intros c Hc. destruct (HI c Hc) as [I1 I2]. rewrite (@sum_at _ _ _ _ _ I1).
  - rewrite (@sum_at _ _ _ _ _ I2); [rewrite !ixeqb_refl; cbn [andb]; ring|]. intros r Hr Hx. rewrite (@ixeqb_neq r) by auto. rewrite andb_false_r. ring.
  - intros q Hq Hx. apply sumL_zero. intros r _. rewrite (@ixeqb_neq q) by auto. cbn [andb]. ring.
Qed.
(* a sum of products over all contraction indices is dot_general *)
Theorem bilin_dot n u v D r : dims_ok D (sh (aval u)) (sh (aval v)) -> let sl := sh (aval u) in let sr := sh (aval v) in
  bilin n u v (dot_shape D sl sr) (fun p => map (fun c => (lix D sl p c, rix D sl sr p c)) (allix (permute (lc D) sl))) r ->
  eqa (lx r) (o_fwd (op_dot D) [aval u; aval v]) /\ awf n r /\ jrow1 (ljac r) /\
  (forall i p, inb p (dot_shape D sl sr) -> jent (ljac r) i p = dspec (op_dot D) [lift u; lift v] i p) /\
  (forall p, inb p (dot_shape D sl sr) -> at_ (llap r) p = lspec (op_dot D) [lift u; lift v] p + hspec n (op_dot D) [lift u; lift v] p).
Proof.
  intros HD sl sr (B1 & B2 & B3 & B4 & B5 & B6 & B7).
  set (C := allix (permute (lc D) sl)) in *.
  assert (HI : forall p c, inb p (dot_shape D sl sr) -> In c C -> inb (lix D sl p c) sl /\ inb (rix D sl sr p c) sr).
  { intros p c Hp Hc. apply (B4 p _ _ Hp). apply in_map_iff. exists c. auto. }
  assert (CH : forall p w, inb p (dot_shape D sl sr) -> chain1 (op_dot D) [aval u; aval v] p w =
     sumL C (fun c => at_ (aval v) (rix D sl sr p c) * w 0%nat (lix D sl p c) + at_ (aval u) (lix D sl p c) * w 1%nat (rix D sl sr p c))).
  { intros p w Hp. unfold chain1. cbn [length]. rewrite sumn2. cbn [nth]. rewrite sumL_add. f_equal; cbn [op_dot o_d nth]; fold sl; fold sr; fold C.
    - transitivity (sumL (allix sl) (fun q => sumL C (fun c => (if ixeqb q (lix D sl p c) then at_ (aval v) (rix D sl sr p c) else 0) * w 0%nat q))).
      { apply sumL_ext. intros q _. rewrite sumL_scale_r. reflexivity. }
      rewrite sumL_swap. apply sumL_ext. intros c Hc. destruct (HI p c Hp Hc) as [I1 I2]. rewrite (@sum_at _ _ _ _ _ I1); [rewrite ixeqb_refl; reflexivity|]. intros q Hq Hx. rewrite ixeqb_neq by auto. ring.
    - transitivity (sumL (allix sr) (fun q => sumL C (fun c => (if ixeqb q (rix D sl sr p c) then at_ (aval u) (lix D sl p c) else 0) * w 1%nat q))).
      { apply sumL_ext. intros q _. rewrite sumL_scale_r. reflexivity. }
      rewrite sumL_swap. apply sumL_ext. intros c Hc. destruct (HI p c Hp Hc) as [I1 I2]. rewrite (@sum_at _ _ _ _ _ I2); [rewrite ixeqb_refl; reflexivity|]. intros q Hq Hx. rewrite ixeqb_neq by auto. ring. }
  assert (XS : xs_of [lift u; lift v] = [aval u; aval v]) by (unfold xs_of; cbn [map]; rewrite !lift_x; reflexivity).
  split; [|split; [exact B2|split; [exact B3|split]]].
  - split; [exact B1|]. rewrite B1. intros p Hp. rewrite B5 by auto. rewrite sumL_map. reflexivity.
  - intros i p Hp. rewrite B6 by auto. unfold dspec. rewrite XS, CH by auto. rewrite sumL_map. reflexivity.
  - intros p Hp. rewrite B7 by auto. unfold lspec. rewrite XS, CH by auto. rewrite sumL_map. cbn [fst snd nth].
    assert (HQ : hspec n (op_dot D) [lift u; lift v] p = sumL C (fun c => (1 + 1) * sumn n (fun i => vjac u i (lix D sl p c) * vjac v i (rix D sl sr p c)))).
    { unfold hspec. rewrite XS. transitivity (sumn n (fun i => sumL C (fun c => (1 + 1) * (vjac u i (lix D sl p c) * vjac v i (rix D sl sr p c))))).
      2:{ unfold sumn. rewrite sumL_swap. apply sumL_ext. intros c _. rewrite sumL_scale. reflexivity. }
      apply sumn_ext. intros i _. unfold quad. cbn [length]. rewrite sumn2. cbn [nth]. fold sl. fold sr.
      transitivity (sumL (allix sl) (fun q => sumL (allix sr) (fun r => sumL C (fun c => if ixeqb q (lix D sl p c) && ixeqb r (rix D sl sr p c) then 1 else 0) * (vjac u i q * vjac v i r))) +
                    sumL (allix sr) (fun q => sumL (allix sl) (fun r => sumL C (fun c => if ixeqb q (rix D sl sr p c) && ixeqb r (lix D sl p c) then 1 else 0) * (vjac v i q * vjac u i r)))).
      { f_equal; apply sumL_ext; intros q _; rewrite sumn2; cbn [nth op_dot o_h]; fold sl; fold sr; fold C.
        - rewrite (@sumL_zero _ _ _ (allix sl)) by (intros; ring). unfold vjac. ring.
        - rewrite (@sumL_zero _ _ _ (allix sr)) by (intros; ring). unfold vjac. ring. }
      rewrite !pair_sum; [|intros c Hc; destruct (HI p c Hp Hc); auto|intros c Hc; destruct (HI p c Hp Hc); auto]. rewrite <- sumL_add. apply sumL_ext. intros c _. ring. }
    rewrite HQ. rewrite <- sumL_add. reflexivity.
Qed.
End DotGen.
