(* Spec.v : what a (sparse or dense) Jacobian value means.  Independent of how folx computes with it. *)
From Verif Require Export Jvp.
Set Implicit Arguments.

(* t broadcasts to s (numpy, right aligned) *)
Definition bto (t s : shape) : Prop :=
  exists s0 s1, s = s0 ++ s1 /\ Forall2 (fun a b => a = b \/ a = 1) t s1.
(* a merge function puts the n derivative-carrying and the ne other arguments into fixed places *)
Definition merge_ok (mg : mergefn) (n ne : nat) : Prop :=
  exists lay, Permutation lay (seq 0 (n + ne)) /\
  forall (X : Type) (d : X) xs extra, length xs = n -> length extra = ne ->
    mg X xs extra = map (fun j => nth j (xs ++ extra) d) lay.
(* the index map stays inside its arguments *)
Definition iop_wf (g : iop) (ss : list shape) : Prop :=
  forall p, inb p (i_shape g) -> (fst (i_src g p) < length ss)%nat /\ inb (snd (i_src g p)) (nth (fst (i_src g p)) ss []).

Section Spec.
Context {A : Type} {RA : CRing A}.
Open Scope cr_scope.

(* The Jacobian entry d(output at position p)/d(input coordinate i) that a FwdJacobian stands for
   (docstring api.py:19-40): dense: row i, rows that are not stored are zero;
   sparse: the sum of all stored entries at p that carry the index i. *)
Definition jent (J : jac A) (i : nat) (p : ix) : A :=
  match jidx J with
  | None => if (i <? rows (jdata J))%nat then at_ (jdata J) (i :: p) else 0
  | Some m => sumn (rows (jdata J))
                (fun r => if Z.eqb (at_ m (r :: p)) (Z.of_nat i) then at_ (jdata J) (r :: p) else 0)
  end.

(* Well-formed Jacobian of an output of shape s with respect to n inputs: data has shape k :: s; a sparse
   one has an index tensor of the same shape with entries in -1..n-1 and zero data where the index is -1;
   a dense one has at most n rows. *)
Definition jwf (n : nat) (s : shape) (J : jac A) : Prop :=
  exists k, sh (jdata J) = k :: s /\
  match jidx J with
  | None => (k <= n)%nat
  | Some m => sh m = k :: s /\
      forall r p, (r < k)%nat -> inb p s ->
        (-1 <= at_ m (r :: p) < Z.of_nat n)%Z /\ ((at_ m (r :: p) < 0)%Z -> at_ (jdata J) (r :: p) = 0)
  end.
(* the same without the condition on the data stored at index -1 *)
Definition jwf0 (n : nat) (s : shape) (J : jac A) : Prop :=
  exists k, sh (jdata J) = k :: s /\
  match jidx J with
  | None => (k <= n)%nat
  | Some m => sh m = k :: s /\
      forall r p, (r < k)%nat -> inb p s -> (-1 <= at_ m (r :: p) < Z.of_nat n)%Z
  end.
Lemma jwf_jwf0 n s J : jwf n s J -> jwf0 n s J.
Proof.
  intros (k & H & Hw). exists k. split; auto. destruct (jidx J); auto. destruct Hw as [H1 H2]. split; auto.
  intros r p Hr Hp. apply H2; auto.
Qed.

(* ---- specification of one propagation step ---- *)
(* a triple (value, Jacobian, Laplacian) with consistent shapes *)
Definition awf (n : nat) (a : lapl A) : Prop :=
  jwf n (sh (lx a)) (ljac a) /\ sh (llap a) = sh (lx a).
(* a default value, never read *)
Definition la0 : lapl A := Lapl nd0 (Jac nd0 None) nd0.
(* sum over all argument elements: sum_a sum_q d out[p]/d x_a[q] * v a q *)
Definition chain1 (f : op A) (xs : list (nd A)) (p : ix) (v : nat -> ix -> A) : A :=
  sumn (length xs) (fun a => sumL (allix (sh (nth a xs nd0))) (fun q => o_d f xs p a q * v a q)).
(* specification: first-order chain rule *)
Definition dspec (f : op A) (args : list (lapl A)) (i : nat) (p : ix) : A :=
  chain1 f (xs_of args) p (fun a q => jent (ljac (nth a args la0)) i q).
(* specification: first-order part of the Laplacian *)
Definition lspec (f : op A) (args : list (lapl A)) (p : ix) : A :=
  chain1 f (xs_of args) p (fun a q => at_ (llap (nth a args la0)) q).
(* what a propagation step must return *)
Definition step_ok (n : nat) (f : op A) (args : list (lapl A)) (r : result A) : Prop :=
  let '(y, g, l) := r in
  let so := sh (o_fwd f (xs_of args)) in
  y = o_fwd f (xs_of args) /\ jwf n so g /\ sh l = so /\
  (forall i p, inb p so -> jent g i p = dspec f args i p) /\
  (forall p, inb p so -> at_ l p = lspec f args p).

(* A sparse Jacobian stores at least one row; if it stores several and they carry identical indices everywhere,
   all of these are -1 (i.e. the rows are not mere repetitions of one dependency). *)
Definition jinv (J : jac A) : Prop := match jidx J with None => True | Some m => forall k s, sh m = k :: s ->
  (1 <= k)%nat /\ ((2 <= k)%nat -> (forall r p, (r < k)%nat -> inb p s -> at_ m (r :: p) = at_ m (0%nat :: p)) ->
     forall p, inb p s -> (at_ m (0%nat :: p) < 0)%Z) end.
(* specification: a sparse Jacobian has at least one row *)
Definition jrow1 (J : jac A) : Prop := weak J = true -> (1 <= rows (jdata J))%nat.
(* the non-negative indices stored at one output element are distinct *)
Definition jdistinct (J : jac A) : Prop := match jidx J with None => True | Some m => forall k s, sh m = k :: s ->
  forall r r' p, (r < k)%nat -> (r' < k)%nat -> inb p s -> (0 <= at_ m (r :: p))%Z -> at_ m (r :: p) = at_ m (r' :: p) -> r = r' end.

(* ---- structure of functions ---- *)
(* f is elementwise with numpy broadcasting: out[p] only depends on the broadcast position of every argument *)
Definition elementwise (f : op A) (xs : list (nd A)) : Prop :=
  forall a, (a < length xs)%nat -> bto (sh (nth a xs nd0)) (sh (o_fwd f xs)) /\
  forall p q, inb p (sh (o_fwd f xs)) -> inb q (sh (nth a xs nd0)) ->
    q <> bproj (sh (nth a xs nd0)) p -> o_d f xs p a q = 0.
(* f sums x over the given axes *)
Definition is_sum (f : op A) (x : nd A) (axes : list nat) : Prop :=
  let keep := keep_pos (ndim x) axes in
  sh (o_fwd f [x]) = permute keep (sh x) /\ o_fwd f [x] = np_sum axes x /\
  forall p q, inb p (permute keep (sh x)) -> inb q (sh x) ->
    o_d f [x] p 0%nat q = if ixeqb (permute keep q) p then 1 else 0.
(* every kept coordinate of an argument element that influences output p is the (right-aligned) coordinate of p *)
Definition reduces (f : op A) (x : nd A) (axes : list nat) : Prop :=
  let keep := keep_pos (ndim x) axes in
  forall p q, inb p (sh (o_fwd f [x])) -> inb q (sh x) ->
    permute keep q <> bproj (permute keep (sh x)) p -> o_d f [x] p 0 q = 0.
(* the axes sparse_jvp reduces over *)
Definition axes_of (kwaxes in_axes : option (list Z)) (x : nd A) : list Z :=
  match in_axes with Some ax => ax | None => match kwaxes with Some ax => ax | None => map Z.of_nat (seq 0 (ndim x)) end end.

(* the structure folx assumes about argument a of f: elementwise, a sum, or a reduction over the given axes *)
Definition elementwise_at (f : op A) (xs : list (nd A)) (a : nat) : Prop :=
  bto (sh (nth a xs nd0)) (sh (o_fwd f xs)) /\
  forall p q, inb p (sh (o_fwd f xs)) -> inb q (sh (nth a xs nd0)) ->
    q <> bproj (sh (nth a xs nd0)) p -> o_d f xs p a q = 0.
(* specification: the function is a reduction over these axes *)
Definition reduces_at (f : op A) (xs : list (nd A)) (a : nat) (axes : list nat) : Prop :=
  let x := nth a xs nd0 in let keep := keep_pos (ndim x) axes in
  forall p q, inb p (sh (o_fwd f xs)) -> inb q (sh x) ->
    permute keep q <> bproj (permute keep (sh x)) p -> o_d f xs p a q = 0.
(* specification: the declared structure (flags, in_axes) holds of the function *)
Definition struct_at (f : op A) (kwaxes : option (list Z)) (fl : flags) (in_axes : option (list Z)) (xs : list (nd A)) (a : nat) : Prop :=
  let x := nth a xs nd0 in let nax := norm_axes (ndim x) (axes_of kwaxes in_axes x) in
  match axes_of kwaxes in_axes x with
  | [] => elementwise_at f xs a
  | _ => NoDup nax /\ (forall d, In d nax -> (d < ndim x)%nat) /\
         if has SUMMATION fl then xs = [x] /\ is_sum f x nax else reduces_at f xs a nax
  end.
(* the index map of an INDEXING function, when there is one, describes the function and stays in bounds *)
Definition iop_ok (F : fn A) (fl : flags) (merged_xs : list (nd A)) : Prop :=
  match f_iop F with
  | Some (g, _, _) => f_op F = iop_op g /\ iop_wf g (map (@sh A) merged_xs)
  | None => True
  end.
End Spec.
