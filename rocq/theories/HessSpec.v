(* HessSpec.v : what the second-order term must be.  Independent of how folx computes it. *)
From Verif Require Export Hessian Spec.
Set Implicit Arguments.

(* the axes of [ax] in increasing order, for an array of rank n *)
Definition sax (n : nat) (ax : list nat) : list nat := filter (fun d => mem d ax) (seq 0 n).
(* What one batch element of x is: the coordinates on the axes [ax] are kept, all others are read off the batch index b
   (an index of the broadcast batch shape; numpy alignment and broadcasting). *)
Definition bslice {X} (ax : list nat) (b : ix) (x : nd X) : nd X :=
  let s := sax (ndim x) ax in
  Nd (permute s (sh x)) (fun j => at_ x (weave (ndim x) s (bproj (permute (keep_pos (ndim x) s) (sh x)) b) j)).
(* element q of an array of shape s belongs to batch element b *)
Definition in_slice (s : shape) (ax : list nat) (b : ix) (q : ix) : bool :=
  let keep := keepax (length s) ax in ixeqb (permute keep q) (bproj (permute keep s) b).

Section HessSpec.
Context {A : Type} {RA : CRing A}.
Open Scope cr_scope.
(* sum over all pairs of argument elements of d^2 out[p] / d x_a[q] d x_b[r] * u_a[q] * v_b[r] *)
Definition quad (f : op A) (xs : list (nd A)) (p : ix) (u v : nat -> ix -> A) : A :=
  sumn (length xs) (fun a => sumL (allix (sh (nth a xs nd0))) (fun q =>
    sumn (length xs) (fun b => sumL (allix (sh (nth b xs nd0))) (fun r => o_h f xs p a q b r * (u a q * v b r))))).
(* tr(J H J^T) of output p: the sum over all n inputs *)
Definition hspec (n : nat) (f : op A) (args : list (lapl A)) (p : ix) : A :=
  sumn n (fun i => quad f (xs_of args) p (fun a q => jent (ljac (nth a args la0)) i q) (fun a q => jent (ljac (nth a args la0)) i q)).
(* The meaning of in_axes: f maps batch element b of the arguments to batch element b of the result, for all b of the broadcast
   batch shape B; its Hessian has no entries across batch elements.  (in_axes = None: no batch axes, B = [].) *)
Definition batched (f : op A) (axs : list (list nat)) (xs : list (nd A)) : Prop :=
  length axs = length xs /\
  exists B C, bshapes (map2 (fun ax x => reduced_shape (sh x) ax) axs xs) = Some B /\ sh (o_fwd f xs) = B ++ C /\
  forall b ys, inb b B -> Forall2 eqa (map2 (fun ax x => bslice ax b x) axs xs) ys ->
    sh (o_fwd f ys) = C /\
    forall c a q a' q', inb c C -> (a < length xs)%nat -> (a' < length xs)%nat ->
      inb q (sh (nth a xs nd0)) -> inb q' (sh (nth a' xs nd0)) ->
      o_h f xs (b ++ c) a q a' q' =
      if in_slice (sh (nth a xs nd0)) (nth a axs []) b q && in_slice (sh (nth a' xs nd0)) (nth a' axs []) b q'
      then o_h f ys c a (permute (sax (ndim (nth a xs nd0)) (nth a axs [])) q) a' (permute (sax (ndim (nth a' xs nd0)) (nth a' axs [])) q')
      else 0.
(* axes are distinct and in range *)
Definition axes_ok (axs : list (list nat)) (xs : list (nd A)) : Prop :=
  length axs = length xs /\ forall a, (a < length xs)%nat -> NoDup (nth a axs []) /\ forall d, In d (nth a axs []) -> (d < ndim (nth a xs nd0))%nat.
(* what the function flags of api.py:428-440 promise about the Hessian *)
Definition linear (f : op A) (xs : list (nd A)) : Prop := forall p a q b r, inb p (sh (o_fwd f xs)) -> (a < length xs)%nat -> (b < length xs)%nat ->
  inb q (sh (nth a xs nd0)) -> inb r (sh (nth b xs nd0)) -> o_h f xs p a q b r = 0.
(* specification: second derivatives in argument a vanish *)
Definition linear_in (f : op A) (xs : list (nd A)) (a : nat) : Prop := forall p q r, inb p (sh (o_fwd f xs)) ->
  inb q (sh (nth a xs nd0)) -> inb r (sh (nth a xs nd0)) -> o_h f xs p a q a r = 0.
(* the flags are truthful for f at the arguments xs *)
Definition truthful (f : op A) (fl : flags) (xs : list (nd A)) : Prop :=
  (has LINEAR fl = true -> linear f xs) /\ (has LINEAR_IN_FIRST fl = true -> linear_in f xs 0%nat) /\
  (has LINEAR_IN_ONE fl = true -> forall a, (a < length xs)%nat -> linear_in f xs a).
(* the core of a product: the Hessian of sum_j x[j] * y[j], for two arrays of the same shape *)
Definition is_dot (f : op A) (xs : list (nd A)) : Prop :=
  length xs = 2%nat /\ sh (nth 0%nat xs nd0) = sh (nth 1%nat xs nd0) /\ forall p q r, inb p (sh (o_fwd f xs)) -> inb q (sh (nth 0%nat xs nd0)) -> inb r (sh (nth 1%nat xs nd0)) ->
    o_h f xs p 0%nat q 0%nat r = 0 /\ o_h f xs p 1%nat q 1%nat r = 0 /\ o_h f xs p 0%nat q 1%nat r = (if ixeqb q r then 1 else 0) /\ o_h f xs p 1%nat r 0%nat q = (if ixeqb q r then 1 else 0).
(* a product of two arguments: on every pair of batch elements (arrays of the slice shapes) the function is a dot product *)
Definition dot_core (f : op A) (mg : mergefn) (axs : list (list nat)) (xs : list (nd A)) (ne : nat) : Prop :=
  length xs = 2%nat /\ forall ys es, length ys = 2%nat -> length es = ne ->
    (forall a, (a < 2)%nat -> sh (nth a ys nd0) = permute (sax (ndim (nth a xs nd0)) (nth a axs [])) (sh (nth a xs nd0))) ->
    is_dot (merged f mg 2 es) ys.
End HessSpec.
