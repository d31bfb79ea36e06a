(* Jvp.v : model of folx/jvp.py (propagation of value, Jacobian and first-order Laplacian part)
   and of the helpers of folx/utils.py, folx/tree_utils.py and folx/api.py it uses. *)
From Verif Require Export Api.
Set Implicit Arguments.

(* api.py:428-440 FunctionFlags (IntFlag); "F in flags" is  flags & F == F *)
Definition flags := Z.
(* api.py:428-440 FunctionFlags, one definition per flag *)
Definition LINEAR_IN_FIRST : flags := 1%Z.
(* api.py:428-440 (two bits: implies LINEAR_IN_FIRST) *)
Definition LINEAR_IN_ONE : flags := 3%Z.
(* api.py:428-440 (implies LINEAR_IN_ONE) *)
Definition LINEAR : flags := 7%Z.
(* api.py:428-440 *)
Definition REDUCTION : flags := 8%Z.
(* api.py:428-440 (implies LINEAR_IN_ONE) *)
Definition MULTIPLICATION : flags := 19%Z.
(* api.py:428-440 (REDUCTION and MULTIPLICATION) *)
Definition DOT_PRODUCT : flags := 59%Z.
(* api.py:428-440 (implies LINEAR) *)
Definition INDEXING : flags := 71%Z.
(* api.py:428-440 *)
Definition SCATTER : flags := 128%Z.
(* api.py:428-440 *)
Definition JOIN_JVP : flags := 256%Z.
(* api.py:428-440 *)
Definition SPARSE_JHJ : flags := 512%Z.
(* api.py:428-440 (LINEAR and REDUCTION) *)
Definition SUMMATION : flags := 1039%Z.
(* Python: f in flags (api.py:428, enum.IntFlag membership) *)
Definition has (f fl : flags) : bool := Z.eqb (Z.land fl f) f.

(* a merge function (utils.py:290-295): polymorphic, it only moves its arguments around *)
Definition mergefn := forall X : Type, list X -> list X -> list X.
(* utils.py:284-295 merge for the mask computed by split_args; exhausted iterators do not occur *)
Fixpoint merge_mask (m : list bool) {X} (args extra : list X) : list X :=
  match m with
  | [] => []
  | true :: m' => match args with a :: args' => a :: merge_mask m' args' extra | [] => [] end
  | false :: m' => match extra with e :: extra' => e :: merge_mask m' args extra' | [] => [] end
  end.
(* position at which the a-th of n arguments ends up (found by merging labels) *)
Definition posof (mg : mergefn) (n ne a : nat) : nat := pos a (mg nat (seq 0 n) (seq n ne)).

Section Jvp.
Context {A : Type} {RA : CRing A}.
Open Scope cr_scope.

(* A primitive: its value, its first and its second partial derivatives.
   Stands for a JAX primitive together with JAX's differentiation rules for it:
   o_d xs p a q   = d out[p] / d xs[a][q],
   o_h xs p a q b r = d^2 out[p] / d xs[a][q] d xs[b][r]. *)
Record op := Op {
  o_fwd : list (nd A) -> nd A;
  o_d : list (nd A) -> ix -> nat -> ix -> A;
  o_h : list (nd A) -> ix -> nat -> ix -> nat -> ix -> A }.

(* merged_fwd (jvp.py:492-493, wrapper.py:46-47): fwd of the merged argument list, seen as a function of
   the n arguments that carry derivatives *)
Definition merged (f : op) (mg : mergefn) (n : nat) (extra : list (nd A)) : op :=
  let P a := posof mg n (length extra) a in
  Op (fun xs => o_fwd f (mg _ xs extra))
     (fun xs p a q => o_d f (mg _ xs extra) p (P a) q)
     (fun xs p a q b r => o_h f (mg _ xs extra) p (P a) q (P b) r).

(* a default array, never read in bounds (no /repo code) *)
Definition nd0 : nd A := Nd [] (fun _ => 0).
(* jax.jvp(f, xs, ts)[1] *)
Definition jvp1 (f : op) (xs ts : list (nd A)) : nd A :=
  Nd (sh (o_fwd f xs))
     (fun p => sumn (length xs) (fun a =>
        sumL (allix (sh (nth a xs nd0))) (fun q => o_d f xs p a q * at_ (nth a ts nd0) q))).
(* jax.vjp(f, x)[1](cot)[0] for a single argument *)
Definition vjp1 (f : op) (x : nd A) (cot : nd A) : nd A :=
  Nd (sh x) (fun q => sumL (allix (sh (o_fwd f [x]))) (fun p => at_ cot p * o_d f [x] p 0%nat q)).
(* jax.vmap(lambda t: jax.jvp(f, xs, t)[1])(tangents) over K leading rows *)
Definition vmap_jvp (f : op) (xs : list (nd A)) (K : nat) (tans : list (nd A)) : nd A :=
  stack K (sh (o_fwd f xs)) (fun r => jvp1 f xs (map (fun t => row t r) tans)).

(* tree_utils.py:73-82 tree_take(y, slice(None,-1), 0) and tree_take(y, -1, 0) *)
Definition butlast (a : nd A) : nd A := Nd ((rows a - 1)%nat :: tl (sh a)) (at_ a).
(* tree_utils.py:73-82 tree_take(y, -1, 0) *)
Definition lastrow (a : nd A) : nd A := row a (rows a - 1).

(* jvp.py: what the JVP functions return: (y, Jacobian, Laplacian) *)
Definition result := (nd A * jac A * nd A)%type.
(* jnp.ones_like *)
Definition ones_like (a : nd A) : nd A := Nd (sh a) (fun _ => 1).
(* equality of shapes *)
Definition sheq (s t : shape) : bool := if list_eq_dec Nat.eq_dec s t then true else false.
(* Python: a list comprehension whose body may raise *)
Fixpoint sequence {X} (l : list (option X)) : option (list X) :=
  match l with [] => Some [] | o :: l' => let* x := o in let* r := sequence l' in Some (x :: r) end.
(* api.py:339-341 FwdLaplArgs.dense_jacobian *)
Definition dense_jacobian (args : list (lapl A)) : option (list (nd A)) :=
  sequence (map (fun a => dense_array (ljac a)) args).                       (* api.py:340-341 *)
Definition xs_of (args : list (lapl A)) := map (@lx A) args.
(* api.py:363-365 FwdLaplArgs.laplacian *)
Definition laps_of (args : list (lapl A)) := map (@llap A) args.
Definition all_weak (args : list (lapl A)) : bool := forallb (fun a => weak (ljac a)) args.   (* api.py:352-353 *)
Definition any_weak (args : list (lapl A)) : bool := existsb (fun a => weak (ljac a)) args.   (* api.py:356-357 *)

(* jvp.py:417-439 dense_joint_jvp *)
Definition dense_joint_jvp (f : op) (args : list (lapl A)) : option (nd A * nd A * nd A) :=
  let* dj := dense_jacobian args in
  let ext := extend_jacobians dj in
  let tan := map2 (fun j l => concat0 0 [j; expand0 l]) ext (laps_of args) in
  let K := maxl (map rows tan) in
  let yt := vmap_jvp f (xs_of args) K tan in
  Some (o_fwd f (xs_of args), butlast yt, lastrow yt).
(* jvp.py:442-450 dense_split_jvp *)
Definition dense_split_jvp (f : op) (args : list (lapl A)) : option (nd A * nd A * nd A) :=
  let* dj := dense_jacobian args in
  let ext := extend_jacobians dj in
  let K := maxl (map rows ext) in
  Some (o_fwd f (xs_of args), vmap_jvp f (xs_of args) K ext, jvp1 f (xs_of args) (laps_of args)).
(* jvp.py:453-463 dense_elementwise_jvp *)
Definition dense_elementwise_jvp (f : op) (a : lapl A) : option (nd A * nd A * nd A) :=
  let y := o_fwd f [lx a] in
  if negb (sheq (sh y) (sh (lx a))) then dense_split_jvp f [a]
  else let j := vjp1 f (lx a) (ones_like y) in
       let* d := dense_array (ljac a) in
       let* g := bin rmul j d in let* l := bin rmul j (llap a) in
       Some (y, g, l).
(* in_axes == () *)
Definition axes_nil (ax : option (list Z)) : bool := match ax with Some [] => true | _ => false end.
(* jvp.py:466-480 dense_jvp *)
Definition dense_jvp (f : op) (args : list (lapl A)) (fl : flags) (in_axes : option (list Z)) : option result :=
  let* (yg, l) :=
    match args with
    | [a] => if axes_nil in_axes then dense_elementwise_jvp f a
             else if has JOIN_JVP fl then dense_joint_jvp f args else dense_split_jvp f args
    | _ => if has JOIN_JVP fl then dense_joint_jvp f args else dense_split_jvp f args
    end in
  let (y, g) := yg : nd A * nd A in
  Some (y, Jac g None, l).

(* ---- sparse helpers ---- *)
(* utils.py:546-564 broadcast_mask_to_jacobian (assertion failure / broadcast error = None) *)
Definition broadcast_mask_to_jacobian (m : nd Z) (j : nd A) : option (nd Z) :=
  let tgt := tl (sh j) in
  if negb (Nat.eqb (rows m) (rows j)) then None
  else let* b := bshape2 (tl (sh m)) tgt in
       if sheq b tgt then Some (stack (rows m) tgt (fun r => broadcast_to tgt (row m r))) else None.

(* np.unique(m, axis=0, return_inverse=True): rows as flat lists, sorted lexicographically *)
Fixpoint lexcmp (l m : list Z) : comparison :=
  match l, m with
  | [], [] => Eq | [], _ => Lt | _, [] => Gt
  | x :: l', y :: m' => match Z.compare x y with Eq => lexcmp l' m' | c => c end
  end.
(* np.unique(axis=0): insertion into a sorted list of rows *)
Fixpoint insL (x : list Z) (l : list (list Z)) : list (list Z) :=
  match l with
  | [] => [x]
  | y :: l' => match lexcmp x y with Eq => l | Lt => x :: l | Gt => y :: insL x l' end
  end.
(* np.unique(axis=0) *)
Definition uniqL (l : list (list Z)) : list (list Z) := fold_right insL [] l.
(* np.unique(return_inverse=True): position of a row *)
Fixpoint posL (x : list Z) (l : list (list Z)) : nat :=
  match l with [] => 0 | y :: l' => match lexcmp x y with Eq => 0 | _ => S (posL x l') end end.
(* np.unique(m, axis=0, return_inverse=True), used at jvp.py:190-252 *)
Definition unique_rows (m : nd Z) : nd Z * (nat -> nat) :=
  let rl := map (fun r => flat (row m r)) (seq 0 (rows m)) in
  let u := uniqL rl in
  (Nd (length u :: tl (sh m)) (fun i => nth (ravel_ix (tl (sh m)) (tl i)) (nth (hd 0%nat i) u []) 0%Z),
   fun r => posL (flat (row m r)) u).

(* api.py:368-381 one_hot_sparse_jacobian, concatenated over the outer tuple (jvp.py:212-218) and with the
   Laplacians appended: the tangent of argument j *)
Definition one_hot_tangent (args : list (lapl A)) (j : nat) (a : lapl A) : nd A :=
  concat0 0 (map (fun ib => let (i, b) := ib : nat * lapl A in
                            if Nat.eqb i j then jdata (ljac a)
                            else Nd (rows (jdata (ljac b)) :: tl (sh (jdata (ljac a)))) (fun _ => 0))
                 (combine (seq 0 (length args)) args)
             ++ [expand0 (llap a)]).

(* jvp.py:190-252 sparse_diag_jvp *)
Definition sparse_diag_jvp (f : op) (args : list (lapl A)) (fl : flags) (in_axes : option (list Z)) : option result :=
  if negb (all_weak args) then dense_jvp f args fl in_axes else
  let xs := xs_of args in
  let y := o_fwd f xs in
  let K := list_sum (map (fun a => rows (jdata (ljac a))) args) in
  let* (g, l) :=
    match args with
    | [a] => if sheq (sh y) (sh (lx a)) then
               let j := vjp1 f (lx a) (ones_like y) in
               let* g := bin rmul j (jdata (ljac a)) in let* l := bin rmul j (llap a) in Some (g, l)
             else
               let yt := vmap_jvp f xs (K + 1) (map (fun ja => one_hot_tangent args (fst ja) (snd ja)) (combine (seq 0 (length args)) args)) in
               Some (butlast yt, lastrow yt)
    | _ => let yt := vmap_jvp f xs (K + 1) (map (fun ja => one_hot_tangent args (fst ja) (snd ja)) (combine (seq 0 (length args)) args)) in
           Some (butlast yt, lastrow yt)
    end in
  let* (rm, g2) :=
    match args with
    | [a] => Some (mask (ljac a), g)
    | _ => let* ms := bexcs (map (fun a => mask (ljac a)) args) in
           let (u, inv) := unique_rows (concat0 (-1)%Z ms) in
           Some (u, segment_sum K (tl (sh g)) g (fun r => Z.of_nat (inv r)) (rows u))
    end in
  let* rm2 := broadcast_mask_to_jacobian rm g2 in
  if sheq (sh g2) (sh rm2) then Some (y, Jac g2 (Some rm2), l) else None.

(* An indexing operation: every output element is a copy of one element of one argument of the full
   argument list (gather, slice, reshape, transpose, concatenate, select_n with its selector fixed, ...). *)
Record iop := Iop { i_shape : shape; i_src : ix -> nat * ix }.
(* the operation applied to arrays of any element type *)
Definition iop_fwd {X} (d : X) (g : iop) (xs : list (nd X)) : nd X :=
  Nd (i_shape g) (fun p => let (a, q) := i_src g p in at_ (nth a xs (Nd [] (fun _ => d))) q).
(* equality of multi-indices *)
Definition ixeqb (p q : ix) : bool := if list_eq_dec Nat.eq_dec p q then true else false.
(* an index operation as a differentiable function: its derivative copies elements (no /repo code: jax.lax.slice, gather, ...) *)
Definition iop_op (g : iop) : op :=
  Op (iop_fwd 0 g)
     (fun _ p a q => let (a', q') := i_src g p in if Nat.eqb a' a && ixeqb q' q then 1 else 0)
     (fun _ _ _ _ _ _ => 0).
(* utils.py:382-410 broadcast_dim, axis=0 *)
Definition pad_rows {X} (d : X) (n : nat) (a : nd X) : nd X :=
  concat0 d [a; Nd ((n - rows a)%nat :: tl (sh a)) (fun _ => d)].
(* utils.py:382-410 broadcast_dim, all arrays *)
Definition broadcast_dim {X} (d : X) (l : list (nd X)) : list (nd X) :=
  let m := maxl (map rows l) in map (pad_rows d m) l.

(* jvp.py:255-330 sparse_index_jvp.  [ok] = false: evaluating the operation at trace time raises
   (data-dependent indices).  [filled] : index_static_args is not None (constants are replaced by -1);
   otherwise a constant data operand makes the integer evaluation fail with a dtype error (lax.scatter). *)
Definition sparse_index_jvp (g : iop) (ok filled : bool) (mg : mergefn) (args : list (lapl A)) (extra : list (nd A))
    (fl : flags) (in_axes : option (list Z)) : option result :=
  let f := merged (iop_op g) mg (length args) extra in
  if negb (all_weak args) then dense_jvp f args fl in_axes else
  let n := length args in
  let from_extra p := (n <=? nth (fst (i_src g p)) (mg nat (seq 0 n) (seq n (length extra))) 0)%nat in
  if negb ok || (negb filled && existsb from_extra (allix (i_shape g))) then dense_jvp f args fl in_axes else
  let masks := broadcast_dim (-1)%Z (map (fun a => mask (ljac a)) args) in          (* l.324 *)
  let K := maxl (map rows masks) in
  let m := stack K (i_shape g) (fun r =>
             iop_fwd (-1)%Z g (mg _ (map (fun t => row t r) masks)
                                    (map (fun e => Nd (sh e) (fun _ => (-1)%Z)) extra))) in (* l.299-325 *)
  let tan := map2 (fun j l => concat0 0 [j; expand0 l]) (broadcast_dim 0 (map (fun a => jdata (ljac a)) args)) (laps_of args) in
  let yt := vmap_jvp f (xs_of args) (K + 1) tan in
  let gy := butlast yt in
  if sheq (sh gy) (sh m) then Some (o_fwd f (xs_of args), Jac gy (Some m), lastrow yt) else None.

(* ---- summation ---- *)
(* x.sum(axes), axes sorted and non-negative *)
Definition keep_pos (nd_ : nat) (axes : list nat) : list nat :=
  filter (fun d => negb (existsb (Nat.eqb d) axes)) (seq 0 nd_).
(* index with coordinates i on the kept axes and j on the reduced axes *)
Definition weave (nd_ : nat) (axes : list nat) (i j : ix) : ix :=
  map (fun d => if existsb (Nat.eqb d) axes then nth (pos d axes) j 0%nat else nth (pos d (keep_pos nd_ axes)) i 0%nat)
      (seq 0 nd_).
(* np.sum(a, axis=axes), used at jvp.py:38-113 *)
Definition np_sum (axes : list nat) (a : nd A) : nd A :=
  Nd (permute (keep_pos (ndim a) axes) (sh a))
     (fun i => sumL (allix (permute axes (sh a))) (fun j => at_ a (weave (ndim a) axes i j))).

(* jvp.py:65-75 compute_outdeps on idx : (R, C): the sorted distinct values of every column, padded with -1 to
   the largest number of distinct values.  (np.diff(np.sort(.)) > 0 counts distinct values minus one, and 0 for
   an empty column.)  C = 0 raises (max of an empty array), see sparse_sum_jvp. *)
Definition column (idx : nd Z) (c : nat) : list Z := map (fun r => at_ idx [r; c]) (seq 0 (rows idx)).
(* jvp.py:65-75 compute_outdeps *)
Definition compute_outdeps (idx : nd Z) (C : nat) : nd Z :=
  let mo := Nat.max 1 (maxl (map (fun c => length (uniqZ (column idx c))) (seq 0 C))) in
  Nd [mo; C] (fun i => nth (nth 0 i 0%nat) (uniq_size mo (-1)%Z (column idx (nth 1 i 0%nat))) (-1)%Z).
(* np.max of a list of indices (-1 for the empty list, where the caller raises) *)
Definition listmaxZ (l : list Z) : Z := match l with [] => (-1)%Z | z :: l' => fold_left Z.max l' z end.

(* jvp.py:38-113 sparse_sum_jvp; axes given and non-negative *)
Definition sparse_sum_jvp (a : lapl A) (axes : list nat) (threshold : Z) : option result :=
  match jidx (ljac a) with
  | None => None                                                               (* l.55 assert *)
  | Some m =>
    let y := np_sum axes (lx a) in let yl := np_sum axes (llap a) in           (* l.47-48 *)
    let out_shape := sh y in let C := prod out_shape in
    let red := 0%nat :: map S axes in                                          (* l.53 *)
    let nonred := filter (fun d => negb (existsb (Nat.eqb d) red)) (seq 0 (ndim (jdata (ljac a)))) in
    let order := red ++ nonred in                                              (* l.56 *)
    let tm := transpose order m in
    let R := prod (firstn (length red) (sh tm)) in
    let idx := reshape [R; C] tm in                                            (* l.72 *)
    if Nat.eqb C 0 then None else                                              (* l.60 .max() of an empty array *)
    let idx_out := compute_outdeps idx C in                                    (* l.73 *)
    let dense := (threshold <? Z.of_nat (rows idx_out))%Z in
    let out_dim := if dense then Z.to_nat (listmaxZ (flat idx) + 1) else rows idx_out in
    let idx' := if dense then idx
                else Nd [R; C] (fun i => Z.of_nat (argmax_eq (at_ idx i) (column idx_out (nth 1 i 0%nat)))) in
    let omask := if dense then None else Some (reshape (out_dim :: out_shape) idx_out) in
    let jr := reshape [R; C] (transpose order (jdata (ljac a))) in             (* l.87 *)
    let jr2 := reshape (R :: out_shape) jr in let ir2 := reshape (R :: out_shape) idx' in  (* l.90-91 *)
    let (ic, rep) := compact ir2 in                                            (* l.92 *)
    let vax := filter (fun i => negb (existsb (Nat.eqb i) rep) && (0 <? i)%nat) (seq 0 (ndim ic)) in
    let norder := 0%nat :: vax ++ rep in                                       (* l.94 *)
    let it := transpose norder ic in
    let it2 := Nd (firstn (1 + length vax) (sh it)) (fun i => at_ it (i ++ repeat 0%nat (length rep))) in  (* l.96 *)
    let jt := transpose norder jr2 in                                          (* l.97 *)
    let V := prod (tl (sh it2)) in let W := prod (skipn (1 + length vax) (sh jt)) in
    let i3 := reshape [R; V] it2 in let j3 := reshape [R; V; W] jt in          (* l.99-100 *)
    (* l.102-103 segment sum, vmapped over axis 1 *)
    let oj := Nd [out_dim; V; W] (fun i => sumn R (fun r =>
                 if Z.eqb (at_ i3 [r; nth 1 i 0%nat]) (Z.of_nat (nth 0 i 0%nat)) then at_ j3 [r; nth 1 i 0%nat; nth 2 i 0%nat] else 0)) in
    let o2 := reshape (out_dim :: tl (sh jt)) oj in                            (* l.105 *)
    let o3 := transpose (argsort norder) o2 in                                 (* l.106 *)
    let o4 := reshape (out_dim :: out_shape) o3 in                             (* l.107 *)
    Some (y, Jac o4 omask, yl)
  end.

(* ---- reductions ---- *)
(* utils.py:428-517 get_jacobian_for_reduction; folx only ever calls it with one Jacobian (all callers pass a
   single argument, see jvp.py:567-578), axes already made non-negative *)
Definition get_jacobian_for_reduction (J : jac A) (axes : list nat) : option (nd A * nd Z) :=
  let m := bexc1 (tl (sh (mask J))) (mask J) in                                (* l.417 *)
  let nd_ := ndim m in
  let rshape := permute axes (tl (sh m)) in                                    (* l.419-421 *)
  let rsize := prod rshape in
  let jred := map S axes ++ [0%nat] in                                         (* l.425-428 *)
  let kept := filter (fun d => negb (existsb (Nat.eqb d) jred)) (seq 0 nd_) in (* l.429-431 *)
  let kshape := permute kept (sh m) in
  let ksize := prod kshape in
  let inv := argsort (kept ++ jred) in                                         (* l.437-440 *)
  let m3 := reshape [ksize; rsize; rows m] (transpose (kept ++ jred) m) in     (* l.445-456 *)
  let per b := filter (fun z => negb (Z.eqb z (-1))) (uniqZ (flat (row m3 b))) in  (* l.460-461 *)
  let mu := maxl (map (fun b => length (per b)) (seq 0 ksize)) in              (* l.462 *)
  let om := Nd [ksize; mu] (fun i => nth (nth 1 i 0%nat) (per (nth 0 i 0%nat)) (-1)%Z) in  (* l.465-470 *)
  let oms := transpose inv (reshape (kshape ++ repeat 1%nat (length rshape) ++ [mu]) om) in (* l.473-479 *)
  let* im := get_index_mask J oms in
  let* jj := materialize_for_idx J true im mu in                               (* l.482-488 *)
  Some (jj, reshape (mu :: kshape) oms).                                       (* l.490 *)

(* axes[axes < 0] += ndim *)
Definition norm_axes (n : nat) (ax : list Z) : list nat :=
  map (fun z => Z.to_nat (if (z <? 0)%Z then z + Z.of_nat n else z)%Z) ax.

(* the general reduction branch of sparse_jvp, jvp.py:161-187, for the single argument it is used with *)
Definition sparse_reduction_jvp (f : op) (a : lapl A) (axes : list Z) (threshold : Z) (fl : flags) (in_axes : option (list Z)) : option result :=
  let* (gt, om) := get_jacobian_for_reduction (ljac a) (norm_axes (ndim (jdata (ljac a)) - 1) axes) in
  if (threshold <? Z.of_nat (rows om))%Z then dense_jvp f [a] fl in_axes
  else
    let* (g', l') := bexc gt (expand0 (llap a)) in
    let tan := concat0 0 [g'; l'] in
    let yt := vmap_jvp f [lx a] (rows tan) [tan] in
    let gy := butlast yt in
    let* nm := broadcast_mask_to_jacobian om gy in
    if sheq (sh gy) (sh nm) then Some (o_fwd f [lx a], Jac gy (Some nm), lastrow yt) else None.

(* description of a wrapped function: the primitive, kwargs['axes'], and, for INDEXING functions, the index map *)
Record fn := Fn { f_op : op; f_kwaxes : option (list Z); f_iop : option (iop * bool * bool) }.

(* jvp.py:116-187 sparse_jvp for a single argument without the SCATTER flag (jvp.py:144-155 is modelled in
   Scatter.v).  "axes is None" with a single argument means all axes (jvp.py:130-136). *)
Definition sparse_jvp1 (f : op) (kwaxes : option (list Z)) (a : lapl A) (threshold : Z) (fl : flags)
    (in_axes : option (list Z)) : option result :=
  if negb (weak (ljac a)) then dense_jvp f [a] fl in_axes else
  let axes := match in_axes with
              | Some ax => ax
              | None => match kwaxes with Some ax => ax | None => map Z.of_nat (seq 0 (ndim (lx a))) end
              end in
  match axes with
  | [] => sparse_diag_jvp f [a] fl in_axes
  | _ => if has SUMMATION fl then sparse_sum_jvp a (norm_axes (ndim (lx a)) axes) threshold
         else sparse_reduction_jvp f a axes threshold fl in_axes
  end.
(* jvp.py:140-142 with several sparse arguments: parallel_jvp only gets there with in_axes = () *)
Definition sparse_jvp (f : op) (kwaxes : option (list Z)) (args : list (lapl A)) (threshold : Z) (fl : flags)
    (in_axes : option (list Z)) : option result :=
  match args with
  | [a] => sparse_jvp1 f kwaxes a threshold fl in_axes
  | _ => if negb (all_weak args) then dense_jvp f args fl in_axes
         else if axes_nil in_axes then sparse_diag_jvp f args fl in_axes else None
  end.

(* ---- get_jvp_function, jvp.py:483-580 ---- *)
(* jvp.py:497-521 parallel_jvp *)
Definition parallel_jvp (F : fn) (mg : mergefn) (extra : list (nd A)) (threshold : Z) (fl : flags)
    (in_axes : option (list Z)) (args : list (lapl A)) : option result :=
  let f := merged (f_op F) mg (length args) extra in
  if negb (all_weak args) then dense_jvp f args fl in_axes
  else if has INDEXING fl then
    match f_iop F with
    | Some (g, ok, filled) => sparse_index_jvp g ok filled mg args extra fl in_axes
    | None => dense_jvp f args fl in_axes          (* the operation cannot be evaluated on integers *)
    end
  else sparse_jvp f (f_kwaxes F) args threshold fl in_axes.

(* Python extra[:-n] and extra[-n:] *)
Definition py_upto_neg {X} (n : nat) (l : list X) : list X :=
  match n with O => [] | _ => firstn (length l - n) l end.
(* Python extra[-n:] *)
Definition py_from_neg {X} (n : nat) (l : list X) : list X :=
  match n with O => l | _ => skipn (length l - n) l end.
(* jvp.py:530-533 new_merge *)
Definition new_merge (mg : mergefn) (n_static i : nat) : mergefn := fun X args extra =>
  let ex := py_upto_neg n_static extra in let st := py_from_neg n_static extra in
  mg X (firstn i st ++ firstn 1 args ++ skipn i st) ex.
(* jvp.py:523-565 one_by_one_jvp : the loop over the arguments *)
Fixpoint obo_loop (F : fn) (mg : mergefn) (extra xs : list (nd A)) (threshold : Z) (fl : flags)
    (in_axes : option (list Z)) (i : nat) (rest : list (lapl A)) (acc : option result) : option result :=
  match rest with
  | [] => acc
  | a :: rest' =>
      let new_extra := extra ++ firstn i xs ++ skipn (i + 1) xs in
      let f := merged (f_op F) (new_merge mg (length xs - 1) i) 1 new_extra in
      let* r := sparse_jvp1 f (f_kwaxes F) a threshold fl in_axes in
      let acc' := match acc with
                  | None => Some r
                  | Some (y, g, l) =>
                      let '(_, g', l') := r in
                      let* g2 := jadd g g' in let* l2 := bin radd l l' in Some (y, g2, l2)
                  end in
      match acc' with None => None | Some _ => obo_loop F mg extra xs threshold fl in_axes (S i) rest' acc' end
  end.
(* jvp.py:523-565 one_by_one_jvp *)
Definition one_by_one_jvp (F : fn) (mg : mergefn) (extra : list (nd A)) (threshold : Z) (fl : flags)
    (in_axes : option (list Z)) (args : list (lapl A)) : option result :=
  obo_loop F mg extra (xs_of args) threshold fl in_axes 0 args None.

(* jvp.py:567-580 jvp *)
Definition jvp_fn (F : fn) (mg : mergefn) (extra : list (nd A)) (threshold : Z) (fl : flags)
    (in_axes : option (list Z)) (args : list (lapl A)) : option result :=
  if negb (any_weak args) || (all_weak args && (has INDEXING fl || axes_nil in_axes || Nat.eqb (length args) 1))
  then parallel_jvp F mg extra threshold fl in_axes args
  else one_by_one_jvp F mg extra threshold fl in_axes args.
End Jvp.
Arguments op A : clear implicits.
Arguments fn A : clear implicits.
Arguments result A : clear implicits.
Arguments Op {A}.
