(* Cplx.v : elementwise maps of FwdLaplArrays (api.py:226-238, 283-308; wrapper.py:157-176) and complex pullbacks (ad.py:7-42).
   Complex numbers are pairs over a commutative ring (HessRules.v: CRing_C). *)
From Verif Require Export HessRules Wrap.
Set Implicit Arguments.

(* ---- real / imag / conj / astype ----------------------------------------------------------------------- *)
Section Map.
Context {A B : Type} {RA : CRing A} {RB : CRing B}.
(* api.py:226-238 FwdJacobian.astype / real / imag / conj: apply the map to the stored data, keep x0_idx *)
Definition jmap (phi : A -> B) (J : jac A) : jac B := Jac (ndmap phi (jdata J)) (jidx J).
(* api.py:283-294, 300-308 FwdLaplArray.astype (floating and complex types) / real / imag / conj *)
Definition lmap (phi : A -> B) (a : lapl A) : lapl B := Lapl (ndmap phi (lx a)) (jmap phi (ljac a)) (ndmap phi (llap a)).
(* wrapper.py:157-176 wrap_elementwise: plain arguments are passed to the function; otherwise it is applied to the value, the Jacobian data and the
   Laplacian of the only argument *)
Definition wrap_elementwise (phi : A -> B) (args : list (arg A)) : option (arg B) :=
  match args with [AL a] => Some (AL (lmap phi a)) | [AX x] => Some (AX (ndmap phi x)) | _ => None end.

(* pointwise equality of arrays *)
Definition peq {X} (a b : nd X) : Prop := sh a = sh b /\ forall i, at_ a i = at_ b i.
(* equality of results that may raise *)
Definition opeq {X} (a b : option (nd X)) : Prop := match a, b with Some x, Some y => peq x y | None, None => True | _, _ => False end.
(* a map that respects sums *)
Definition additive (phi : A -> B) : Prop := phi r0 = r0 /\ forall x y, phi (radd x y) = radd (phi x) (phi y).

Context (phi : A -> B) (Hphi : additive phi).
Lemma phi_sumn n (f : nat -> A) : phi (sumn n f) = sumn n (fun i => phi (f i)).
Proof. destruct Hphi as [H0 Ha]. unfold sumn. induction (seq 0 n) as [|x l IH]; cbn [sumL]; [exact H0|]. rewrite Ha, IH. reflexivity. Qed.

Lemma materialize_map J st idx num : opeq (materialize_for_idx (jmap phi J) st idx num) (option_map (ndmap phi) (materialize_for_idx J st idx num)).
Proof.
  unfold materialize_for_idx, bexc. cbn [jdata jmap]. change (sh (ndmap phi (jdata J))) with (sh (jdata J)).
  destruct (bshape2 (tl (sh (jdata J))) (tl (sh (if st then fst (compact idx) else idx)))) as [post|]; [|exact I]. cbn [bind].
  destruct (if st then compact (bexc1 post (if st then fst (compact idx) else idx)) else (bexc1 post (if st then fst (compact idx) else idx), [])) as [idx3 copied].
  cbn [option_map opeq]. split; [reflexivity|]. intros i. cbn [transpose reshape stack segment_sum ndmap at_ sh row hd tl].
  symmetry. rewrite phi_sumn. apply sumn_ext. intros r _. destruct (Z.eqb _ _); [reflexivity|]. apply Hphi.
Qed.
Lemma construct_map J idx : opeq (construct_jac_for_idx (jmap phi J) idx) (option_map (ndmap phi) (construct_jac_for_idx J idx)).
Proof.
  unfold construct_jac_for_idx. destruct (Nat.eqb (rows idx) 0).
  - split; [reflexivity|]. intros i. cbn. symmetry. apply Hphi.
  - cbn [jidx jmap]. destruct (jidx J) as [m|] eqn:E.
    + assert (Em : get_index_mask (jmap phi J) idx = get_index_mask J idx).
      { unfold get_index_mask, mask, jmap. cbn [jidx jdata]. rewrite E. reflexivity. }
      rewrite Em. destruct (get_index_mask J idx) as [im|]; [|exact I]. cbn [bind]. apply materialize_map.
    + split; [reflexivity|]. intros i. reflexivity.
Qed.
Theorem dense_array_map J : opeq (dense_array (jmap phi J)) (option_map (ndmap phi) (dense_array J)).
Proof.
  unfold dense_array. cbn [jidx jmap]. destruct (jidx J) as [m|] eqn:E; [|split; [reflexivity|intros i; reflexivity]].
  assert (Em : max_n (jmap phi J) = max_n J) by (unfold max_n, jmap; cbn [jidx]; rewrite E; reflexivity).
  rewrite Em. destruct (max_n J) as [mx|]; [|exact I]. cbn [bind]. apply construct_map.
Qed.
(* the Jacobian entries are mapped *)
Lemma jent_map J i p : jent (jmap phi J) i p = phi (jent J i p).
Proof.
  unfold jent, jmap. cbn [jidx jdata]. change (rows (ndmap phi (jdata J))) with (rows (jdata J)). destruct (jidx J) as [m|].
  - rewrite phi_sumn. apply sumn_ext. intros r _. destruct (Z.eqb _ _); [reflexivity|]. symmetry. apply Hphi.
  - destruct (_ <? _); [reflexivity|]. symmetry. apply Hphi.
Qed.
End Map.

Section Maps.
Context {A : Type} {RA : CRing A}.
Add Ring Aring_Cx : (@rth A RA).
Open Scope cr_scope.
(* jnp.real, jnp.imag, jnp.conj, float -> complex *)
Definition re (z : A * A) : A := fst z.
(* jnp.imag *)
Definition im (z : A * A) : A := snd z.
(* jnp.conj *)
Definition cconj (z : A * A) : A * A := (fst z, - snd z).
(* astype(complex) *)
Definition to_complex (x : A) : A * A := (x, 0).
Lemma re_additive : @additive _ _ CRing_C RA re.
Proof. split; reflexivity. Qed.
Lemma im_additive : @additive _ _ CRing_C RA im.
Proof. split; reflexivity. Qed.
Lemma conj_additive : @additive _ _ CRing_C CRing_C cconj.
Proof. split; cbn; unfold cconj, cadd; cbn; intros; f_equal; ring. Qed.
Lemma to_complex_additive : @additive _ _ RA CRing_C to_complex.
Proof. split; cbn; unfold to_complex, cadd; cbn; intros; [reflexivity|]. f_equal. ring. Qed.

(* ---- ad.py:7-42 pullbacks of a function with N real inputs and M complex outputs ------------------------ *)
(* jax.vjp of a real function with Jacobian J (M x N): the row vector v^T J, for real v (and v only) *)
Definition vjp_real (M : nat) (J : nat -> nat -> A) (v : nat -> A) : nat -> A := fun j => sumn M (fun o => v o * J o j).
(* ad.py:12-41 vjp_rc.  J is the Jacobian of the complex-valued function; jnp.real(fun) and jnp.imag(fun) have its real and imaginary part. *)
Definition vjp_rc (M : nat) (J : nat -> nat -> A * A) (v : nat -> A * A) : nat -> A * A := fun j =>
  let jr o k := re (J o k) in let ji o k := im (J o k) in
  let vr o := re (v o) in let vi o := im (v o) in
  let vr_jr := vjp_real M jr vr j in let vi_jr := vjp_real M jr vi j in
  let vr_ji := vjp_real M ji vr j in let vi_ji := vjp_real M ji vi j in
  cadd (to_complex (vr_jr - vi_ji)) (cmul (0, 1) (to_complex (vr_ji + vi_jr))).
(* ad.py:44-59 vjp chooses jax.vjp for real outputs and vjp_rc for complex outputs of real inputs; ad.py:62-82 jacrev: one pullback per row of the identity, for a function that is real in, complex out *)
Definition jacrev_rc (M : nat) (J : nat -> nat -> A * A) : nat -> nat -> A * A :=
  fun o => vjp_rc M J (fun o' => if Nat.eqb o o' then (1, 0) else (0, 0)).

(* ad.py:62-82 jacrev of a real function *)
Definition jacrev_rr (M : nat) (J : nat -> nat -> A) : nat -> nat -> A :=
  fun o => vjp_real M J (fun o' => if Nat.eqb o o' then 1 else 0).

Lemma jacrev_rr_spec M J o j : (o < M)%nat -> jacrev_rr M J o j = J o j.
Proof.
  intros Ho. unfold jacrev_rr, vjp_real. rewrite (@sumn_single _ _ M o); auto.
  - rewrite Nat.eqb_refl. ring.
  - intros i _ Hi. apply Nat.neq_sym in Hi. apply Nat.eqb_neq in Hi. rewrite Hi. ring.
Qed.
Lemma vjp_rc_spec M J v j : vjp_rc M J v j = @sumn _ CRing_C M (fun o => cmul (v o) (J o j)).
Proof.
  unfold vjp_rc, vjp_real, cadd, cmul, to_complex. cbn [fst snd].
  assert (HS : forall f : nat -> A * A, @sumn _ CRing_C M f = (sumn M (fun o => fst (f o)), sumn M (fun o => snd (f o)))).
  { intros f. unfold sumn. induction (seq 0 M) as [|x l IH]; [reflexivity|]. cbn [sumL]. rewrite IH. reflexivity. }
  rewrite HS. cbn [fst snd]. unfold sumn. rewrite sumL_sub, sumL_add. unfold re, im. f_equal; ring.
Qed.
Lemma jacrev_rc_spec M J o j : (o < M)%nat -> jacrev_rc M J o j = J o j.
Proof.
  intros Ho. unfold jacrev_rc. rewrite vjp_rc_spec. rewrite (@sumn_single _ CRing_C M o); auto.
  - rewrite Nat.eqb_refl. destruct (J o j). unfold cmul. cbn [fst snd]. f_equal; ring.
  - intros i _ Hi. apply Nat.neq_sym in Hi. apply Nat.eqb_neq in Hi. rewrite Hi. destruct (J i j). unfold cmul. cbn. f_equal; ring.
Qed.

(* ---- ad.py:85-104 jacfwd and hessian ---------------------------------------------------------------------- *)
(* ad.py:85-99 jacfwd: one forward derivative per row of the identity, stacked along the last axis.  [T s] is jax.jvp(f, primals, s)[1], the
   outputs being numbered by E *)
Definition jacfwd {E B : Type} (T : (nat -> A) -> E -> B) : E -> nat -> B := fun e j => T (fun j' => if Nat.eqb j j' then 1 else 0) e.
Lemma jacfwd_spec N M (J : nat -> nat -> A) o j : (j < N)%nat -> (o < M)%nat ->
  jacfwd (fun s o => sumn N (fun k => J o k * s k)) o j = J o j.
Proof.
  intros Hj _. unfold jacfwd. rewrite (@sumn_single _ _ N j); auto.
  - rewrite Nat.eqb_refl. ring.
  - intros i _ Hi. apply Nat.neq_sym in Hi. apply Nat.eqb_neq in Hi. rewrite Hi. ring.
Qed.
(* ad.py:102-104 hessian = jacfwd(jacrev(f)), for a function with real inputs and M complex outputs.  [Jac x] is the Jacobian of f at x;
   [jvp g x s] is jax.jvp(g, (x,), (s,))[1] *)
Definition hessian_rc (jvp : ((nat -> A) -> nat * nat -> A * A) -> (nat -> A) -> (nat -> A) -> nat * nat -> A * A) (M : nat)
  (Jac : (nat -> A) -> nat -> nat -> A * A) (x : nat -> A) : nat * nat -> nat -> A * A :=
  jacfwd (jvp (fun y oj => jacrev_rc M (Jac y) (fst oj) (snd oj)) x).

(* ---- wrapped_functions.py:248-256 the sign of a complex determinant --------------------------------------- *)
(* what slogdet_jvp caches for the sign is the Jacobian and the Laplacian of log det (complex), l.220-223; the branch turns
   them into those of the sign s = exp(i Im log det).  One array element; rows 0..n-1 of the (dense: threshold 0) Jacobian. *)
Definition cI : A * A := (0, 1).
(* wrapped_functions.py:248-256: Jacobian of the sign *)
Definition sign_jac (s : A * A) (J : nat -> A * A) : nat -> A * A :=
  fun r => cmul (cmul cI s) (to_complex (im (J r))).
(* wrapped_functions.py:248-256: Laplacian of the sign *)
Definition sign_lapl (n : nat) (s : A * A) (J : nat -> A * A) (L : A * A) : A * A :=
  let dot := sumn n (fun r => im (J r) * im (J r)) in
  cmul s (csub (cmul cI (to_complex (im L))) (to_complex dot)).
End Maps.
