(* Vmap.v : model of folx/vmap.py (batched_vmap) and folx/experimental/vmap.py (auto_batched_vmap).
   Pytrees are modelled by the list of their leaves; in_axes / out_axes by one entry per leaf (jax expands a prefix
   tree to that; None = not mapped).  Exceptions are None.  jax.vmap is given by its definition: slice, apply, stack. *)
From Verif Require Export NdFacts Api.
Set Implicit Arguments.

(* a Python axis number for an array with n axes; None = out of range *)
Definition axis (n : nat) (ax : Z) : option nat :=
  if ((- Z.of_nat n <=? ax) && (ax <? Z.of_nat n))%Z
  then Some (Z.to_nat (if (ax <? 0)%Z then ax + Z.of_nat n else ax)%Z) else None.

Section Vmap.
Context {A : Type}.
(* jnp.moveaxis(x, d, 0) and jnp.moveaxis(x, 0, d) *)
Definition to_front (d : nat) (a : nd A) : nd A :=
  Nd (nth d (sh a) 0 :: dropn d (sh a)) (fun i => at_ a (insn d (hd 0 i) (tl i))).
(* jnp.moveaxis(x, 0, d) *)
Definition from_front (d : nat) (a : nd A) : nd A :=
  Nd (insn d (hd 0 (sh a)) (tl (sh a))) (fun i => at_ a (nth d i 0 :: dropn d i)).
(* Python: a list comprehension whose body may raise *)
Fixpoint seqo {X} (l : list (option X)) : option (list X) :=
  match l with [] => Some [] | Some x :: l' => let* r := seqo l' in Some (x :: r) | None :: _ => None end.

(* ---- jax.vmap --------------------------------------------------------------------------------------- *)
Definition fn := list (nd A) -> option (list (nd A)).
Context (d0 : A).
Let nd_ : nd A := Nd [] (fun _ => d0).
(* the axis of every argument leaf *)
Definition in_ax (axes : list (option Z)) (args : list (nd A)) : option (list (option nat)) :=
  if Nat.eqb (length axes) (length args) then
    seqo (map2 (fun ax a => match ax with None => Some None | Some z => option_map Some (axis (ndim a) z) end) axes args)
  else None.
(* the mapped sizes *)
Definition sizes (ds : list (option nat)) (args : list (nd A)) : list nat :=
  concat (map2 (fun o a => match o with None => [] | Some d => [nth d (sh a) 0] end) ds args).
(* jax.vmap: inconsistent sizes raise *)
Definition all_eq (B : nat) (l : list nat) : bool := forallb (Nat.eqb B) l.
(* example number b *)
Definition slice (ds : list (option nat)) (args : list (nd A)) (b : nat) : list (nd A) :=
  map2 (fun o a => match o with None => a | Some d => take d b a end) ds args.
(* stack the j-th outputs of the examples along a new axis *)
Definition stack_out (ys : list (list (nd A))) (j : nat) : nd A :=
  Nd (length ys :: sh (nth j (hd [] ys) nd_)) (fun i => at_ (nth j (nth (hd 0 i) ys []) nd_) (tl i)).
(* jax.vmap: all outputs *)
Definition stack_outs (ys : list (list (nd A))) : list (nd A) :=
  map (stack_out ys) (seq 0 (length (hd [] ys))).
(* out_axes *)
Definition put_axes (oaxes : list Z) (outs : list (nd A)) : option (list (nd A)) :=
  if Nat.eqb (length oaxes) (length outs) then
    seqo (map2 (fun ax a => option_map (fun d => from_front d a) (axis (ndim a) ax)) oaxes outs)
  else None.
(* jax.vmap with out_axes=0 *)
Definition vmap_lead (f : fn) (ds : list (option nat)) (args : list (nd A)) (B : nat) : option (list (nd A)) :=
  let* ys := seqo (map (fun b => f (slice ds args b)) (seq 0 B)) in Some (stack_outs ys).
(* jax.vmap(f, in_axes, out_axes) *)
Definition vmap (f : fn) (axes : list (option Z)) (oaxes : list Z) (args : list (nd A)) : option (list (nd A)) :=
  let* ds := in_ax axes args in
  match sizes ds args with
  | [] => None
  | B :: r => if all_eq B r then let* o := vmap_lead f ds args B in put_axes oaxes o else None
  end.

(* ---- folx/vmap.py:11-83 batched_vmap ----------------------------------------------------------------- *)
(* vmap.py:29-32 mapped_args / static_args *)
Fixpoint mapped {X} (mask : list bool) (l : list X) : list X :=
  match mask, l with m :: mask', x :: l' => if m then x :: mapped mask' l' else mapped mask' l' | _, _ => [] end.
(* vmap.py:34-37 merge: consume one iterator or the other according to the mask *)
Fixpoint merge {X} (mask : list bool) (xs ys : list X) : list X :=
  match mask with
  | [] => []
  | true :: mask' => match xs with x :: xs' => x :: merge mask' xs' ys | [] => [] end
  | false :: mask' => match ys with y :: ys' => y :: merge mask' xs ys' | [] => [] end
  end.
(* vmap.py:56 and 70: x[r:] and x[:r] on the leading axis *)
Definition drop_rows (r : nat) (a : nd A) : nd A :=
  Nd (hd 0 (sh a) - r :: tl (sh a)) (fun i => at_ a (r + hd 0 i :: tl i)).
(* vmap.py:70 x[:r] *)
Definition take_rows (r : nat) (a : nd A) : nd A := Nd (Nat.min r (hd 0 (sh a)) :: tl (sh a)) (at_ a).
(* vmap.py:56 x.reshape(k, m, x.shape[1:]), which raises when the sizes differ *)
Definition chunk (k m : nat) (a : nd A) : option (nd A) :=
  let s := k :: m :: tl (sh a) in if Nat.eqb (prod s) (prod (sh a)) then Some (reshape s a) else None.
(* vmap.py:68 x.reshape(-1, x.shape[2:]) *)
Definition unchunk (a : nd A) : nd A :=
  reshape (nth 0 (sh a) 0 * nth 1 (sh a) 0 :: tl (tl (sh a))) a.
(* vmap.py:60-62 vmapped_fn: jax.vmap over the leading axis of the list of mapped arguments *)
Definition vmapped_fn (f : fn) (mask : list bool) (static : list (nd A)) (xs : list (nd A)) : option (list (nd A)) :=
  match map rows xs with
  | [] => None
  | B :: r => if all_eq B r
      then let* ys := seqo (map (fun b => f (merge mask (map (fun x => row x b) xs) static)) (seq 0 B)) in
           Some (stack_outs ys)
      else None
  end.
(* vmap.py:64-67 jax.lax.scan(inner, None, loop_args, length=num_batches)[1] *)
Definition scan_chunks (g : list (nd A) -> option (list (nd A))) (k : nat) (xs : list (nd A)) : option (list (nd A)) :=
  let* ys := seqo (map (fun c => g (map (fun x => row x c) xs)) (seq 0 k)) in Some (stack_outs ys).
(* vmap.py:21-81 result.  The assert of vmap.py:40-44 tests a generator object and never fires. *)
Definition batched_vmap (f : fn) (m : nat) (axes : list (option Z)) (oaxes : list Z) (args : list (nd A)) :
  option (list (nd A)) :=
  let* ds := in_ax axes args in
  let mask := map (fun o : option nat => match o with Some _ => true | None => false end) ds in
  match sizes ds args with
  | [] => None
  | B :: _ =>
      if B <=? m then vmap f axes oaxes args
      else if Nat.eqb m 0 then None
      else
        let k := B / m in
        let rem := B mod m in
        let lead := concat (map2 (fun o a => match o with None => [] | Some d => [to_front d a] end) ds args) in
        let static := mapped (map negb mask) args in
        let* loop_args := seqo (map (fun x => chunk k m (drop_rows rem x)) lead) in
        let vm := vmapped_fn f mask static in
        let* res := scan_chunks vm k loop_args in
        let res := map unchunk res in
        let* res := (if 0 <? rem then
                       let* rr := vm (map (take_rows rem) lead) in
                       if Nat.eqb (length rr) (length res) then Some (map2 (fun x r => concat0 d0 [r; x]) res rr) else None
                     else Some res) in
        put_axes oaxes res
  end.
End Vmap.

(* ---- folx/experimental/vmap.py:36-71 auto_batched_vmap ------------------------------------------------- *)
(* lines 59-66; target_mem = mem * max_fraction is the exact rational tn / td (td > 0): float rounding is not modelled *)
Definition max_samples (tn td single pair : Z) : Z :=
  let element_cost := (pair - single)%Z in
  let base_cost := (single - element_cost)%Z in
  if (element_cost =? 0)%Z then 2147483648%Z
  else Z.max ((tn - base_cost * td) / (element_cost * td)) 1.
(* costs: what compute_memory returns for batch sizes 1 and 2, None = it raised.
   The outer option: memory_stats() of the device, None on back ends without it (the CPU): line 36 then raises. *)
Definition auto_batched_vmap {A} (d0 : A) (f : fn) (target : option (Z * Z)) (single pair : option Z)
  (axes : list (option Z)) (oaxes : list Z) (args : list (nd A)) : option (list (nd A)) :=
  let* t := target in
  let fallback := batched_vmap d0 f 1 axes oaxes args in
  match single, pair with
  | Some s, Some p =>
      match batched_vmap d0 f (Z.to_nat (max_samples (fst t) (snd t) s p)) axes oaxes args with
      | Some r => Some r | None => fallback end
  | _, _ => fallback
  end.
