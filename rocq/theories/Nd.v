(* Nd.v : n-dimensional arrays with numpy / jax.numpy semantics.
   This file is the model of the array library folx is written in (numpy, jax.numpy); it models no folx code.
   An array is a shape and a total function on multi-indices; only in-bounds indices are meaningful. *)
From Verif Require Export Base.
Set Implicit Arguments.

(* numpy: a shape, one size per axis (array library, no /repo code) *)
Definition shape := list nat.
(* numpy: a multi-index *)
Definition ix := list nat.
(* numpy / jax.numpy array: shape and elements *)
Record nd (A : Type) := Nd { sh : shape; at_ : ix -> A }.
Arguments Nd {A} sh at_.
(* numpy: x.ndim *)
Definition ndim {A} (a : nd A) : nat := length (sh a).

(* np.prod(shape) *)
Fixpoint prod (s : shape) : nat := match s with [] => 1 | n :: s' => n * prod s' end.

(* multi-index in bounds *)
Definition inb (i : ix) (s : shape) : Prop := Forall2 lt i s.
(* inb, decided (no /repo code) *)
Fixpoint inbb (i : ix) (s : shape) : bool :=
  match i, s with [], [] => true | x :: i', n :: s' => (x <? n) && inbb i' s' | _, _ => false end.

(* all multi-indices, row-major order *)
Fixpoint allix (s : shape) : list ix :=
  match s with [] => [[]] | n :: s' => flat_map (fun x => map (cons x) (allix s')) (seq 0 n) end.

(* row-major (C order) flattening *)
Fixpoint ravel_ix (s : shape) (i : ix) : nat :=
  match s, i with n :: s', x :: i' => x * prod s' + ravel_ix s' i' | _, _ => 0 end.
(* inverse of ravel_ix (np.unravel_index) *)
Fixpoint unravel_ix (s : shape) (k : nat) : ix :=
  match s with [] => [] | n :: s' => (k / prod s') :: unravel_ix s' (k mod prod s') end.
(* numpy: x.reshape(s), row-major; the caller checks the sizes *)
Definition reshape {A} (s : shape) (a : nd A) : nd A :=
  Nd s (fun i => at_ a (unravel_ix (sh a) (ravel_ix s i))).

(* list[p[0]], list[p[1]], ... *)
Definition permute (p : list nat) (l : list nat) : list nat := map (fun d => nth d l 0) p.
(* np.transpose(a, p) *)
Definition transpose {A} (p : list nat) (a : nd A) : nd A :=
  Nd (permute p (sh a)) (fun j => at_ a (map (fun d => nth (pos d p) j 0) (seq 0 (ndim a)))).
(* np.argsort of a permutation: the inverse permutation (only ever used on permutations) *)
Definition argsort (p : list nat) : list nat := map (fun d => pos d p) (seq 0 (length p)).

(* numpy broadcasting, right aligned *)
Fixpoint map2 {X Y Z} (f : X -> Y -> Z) (l : list X) (m : list Y) : list Z :=
  match l, m with x :: l', y :: m' => f x y :: map2 f l' m' | _, _ => [] end.
(* numpy broadcasting: the element of an array of shape s that is read at index p of the broadcast array *)
Definition bproj (s : shape) (p : ix) : ix :=
  map2 (fun n x => if Nat.eqb n 1 then 0 else x) s (skipn (length p - length s) p).
(* np.broadcast_to *)
Definition broadcast_to {A} (s : shape) (a : nd A) : nd A := Nd s (fun p => at_ a (bproj (sh a) p)).
(* np.broadcast_shapes, None = ValueError *)
Fixpoint bsr (s t : shape) : option shape :=
  match s, t with
  | [], _ => Some t
  | _, [] => Some s
  | a :: s', b :: t' =>
      match bsr s' t' with
      | None => None
      | Some r => if Nat.eqb a b then Some (a :: r) else if Nat.eqb a 1 then Some (b :: r)
                  else if Nat.eqb b 1 then Some (a :: r) else None
      end
  end.
(* np.broadcast_shapes of two shapes; None = ValueError *)
Definition bshape2 (s t : shape) : option shape := option_map (@rev nat) (bsr (rev s) (rev t)).
(* np.broadcast_shapes of any number of shapes *)
Definition bshapes (l : list shape) : option shape :=
  fold_left (fun acc s => match acc with None => None | Some t => bshape2 t s end) l (Some []).

(* moveaxis(a, 0, -1) and moveaxis(a, -1, 0) *)
Definition move_0_last {A} (a : nd A) : nd A :=
  Nd (tl (sh a) ++ [hd 0 (sh a)]) (fun i => at_ a (last i 0 :: removelast i)).
(* moveaxis(a, -1, 0) *)
Definition move_last_0 {A} (a : nd A) : nd A :=
  Nd (last (sh a) 0 :: removelast (sh a)) (fun i => at_ a (tl i ++ [hd 0 i])).

(* a[r] and stacking along a new leading axis (jax.vmap with in_axes=0 / out_axes=0) *)
Definition row {A} (a : nd A) (r : nat) : nd A := Nd (tl (sh a)) (fun p => at_ a (r :: p)).
(* jnp.stack(axis=0) of k arrays of shape s *)
Definition stack {A} (k : nat) (s : shape) (f : nat -> nd A) : nd A :=
  Nd (k :: s) (fun i => at_ (f (hd 0 i)) (tl i)).
(* x.shape[0] *)
Definition rows {A} (a : nd A) : nat := hd 0 (sh a).
(* a[None] *)
Definition expand0 {A} (a : nd A) : nd A := Nd (1 :: sh a) (fun i => at_ a (tl i)).

(* np.concatenate(l, axis=0) ; d is never read in bounds *)
Fixpoint cat_at {A} (d : A) (l : list (nd A)) (r : nat) (p : ix) : A :=
  match l with
  | [] => d
  | a :: l' => if r <? rows a then at_ a (r :: p) else cat_at d l' (r - rows a) p
  end.
(* np.concatenate(l, axis=0) *)
Definition concat0 {A} (d : A) (l : list (nd A)) : nd A :=
  Nd (list_sum (map rows l) :: tl (sh (hd (Nd [] (fun _ => d)) l))) (fun i => cat_at d l (hd 0 i) (tl i)).

(* l[d] := v *)
Fixpoint upd (d v : nat) (l : list nat) : list nat :=
  match l, d with [], _ => [] | x :: l', 0 => v :: l' | x :: l', S d' => x :: upd d' v l' end.
(* drop position d *)
Fixpoint dropn (d : nat) (l : list nat) : list nat :=
  match l, d with [], _ => [] | x :: l', 0 => l' | x :: l', S d' => x :: dropn d' l' end.
(* insert v at position d *)
Fixpoint insn (d v : nat) (l : list nat) : list nat :=
  match d, l with 0, _ => v :: l | S d', [] => [v] | S d', x :: l' => x :: insn d' v l' end.
(* jnp.take(a, k, axis=d) with a scalar k: removes axis d *)
Definition take {A} (d k : nat) (a : nd A) : nd A :=
  Nd (dropn d (sh a)) (fun i => at_ a (insn d k i)).

(* np.unique on a flat array: sorted, without duplicates *)
Fixpoint insZ (x : Z) (l : list Z) : list Z :=
  match l with
  | [] => [x]
  | y :: l' => if (x =? y)%Z then l else if (x <? y)%Z then x :: l else y :: insZ x l'
  end.
(* np.unique(l) *)
Definition uniqZ (l : list Z) : list Z := fold_right insZ [] l.
(* jnp.unique(l, size=n, fill_value=f) *)
Definition uniq_size (n : nat) (f : Z) (l : list Z) : list Z :=
  firstn n (uniqZ l) ++ repeat f (n - length (uniqZ l)).
(* x in l *)
Definition zmem (x : Z) (l : list Z) : bool := existsb (Z.eqb x) l.
(* np.argmax(x == l): first match, 0 when there is none *)
Fixpoint zpos (x : Z) (l : list Z) : nat :=
  match l with [] => 0 | y :: l' => if (y =? x)%Z then 0 else S (zpos x l') end.
(* np.argmax(x == l) *)
Definition argmax_eq (x : Z) (l : list Z) : nat := if zmem x l then zpos x l else 0.

(* extensional equality of arrays *)
Definition eqa {A} (a b : nd A) : Prop := sh a = sh b /\ forall i, inb i (sh a) -> at_ a i = at_ b i.

(* elementwise application *)
Definition ndmap {A B} (f : A -> B) (a : nd A) : nd B := Nd (sh a) (fun i => f (at_ a i)).
(* elementwise application to two arrays of the same shape *)
Definition ndmap2 {A B C} (f : A -> B -> C) (a : nd A) (b : nd B) : nd C :=
  Nd (sh a) (fun i => f (at_ a i) (at_ b i)).
(* np.full(s, v) *)
Definition ndconst {A} (s : shape) (v : A) : nd A := Nd s (fun _ => v).
(* all flat entries, row-major: a.ravel() *)
Definition flat {A} (a : nd A) : list A := map (at_ a) (allix (sh a)).
(* literal array, row-major *)
Definition arr (s : shape) (l : list Z) : nd Z := Nd s (fun i => nth (ravel_ix s i) l 0%Z).
