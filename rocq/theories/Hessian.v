(* Hessian.v : model of folx/hessian.py (the second-order term tr(J H J^T)) and of the helpers of folx/utils.py it uses. *)
From Verif Require Export Jvp.
Set Implicit Arguments.

(* Python: d in l *)
Definition mem (d : nat) (l : list nat) : bool := existsb (Nat.eqb d) l.

(* ---------- batching plan: utils.py:159-244 ---------- *)
(* utils.py:118-156 broadcast_shapes_to_args, canonicalize_axes for one array of rank n.  The assertion only rejects axes >= n;
   an axis below -n is silently kept negative by the code and not modelled (None). *)
Definition canon_axes (n : nat) (in_axes : option (list Z)) : option (list nat) :=
  match in_axes with
  | None => Some (seq 0 n)
  | Some l => if forallb (fun z => ((- Z.of_nat n <=? z) && (z <? Z.of_nat n))%Z) l then Some (norm_axes n l) else None
  end.
(* utils.py:173-184 the loop of vmap_sequence *)
Fixpoint vmap_loop (s : shape) (skip : list nat) (is : list nat) (curr skipped : nat) : list (option nat) :=
  match is with
  | [] => []
  | i :: is' =>
      if mem i skip then vmap_loop s skip is' curr (S skipped)
      else if (length s <? length s - i + curr)%nat then None :: vmap_loop s skip is' curr skipped
      else if Nat.eqb (nth (curr + skipped) s 0) 1 then None :: vmap_loop s skip is' (S curr) skipped
      else Some skipped :: vmap_loop s skip is' (S curr) skipped
  end.
(* utils.py:159-184 vmap_sequence *)
Definition vmap_sequence (s brd : shape) (skip : list nat) : list (option nat) :=
  repeat None (length brd - (length s - length skip)) ++ vmap_loop s skip (seq 0 (length s)) 0 0.
(* utils.py:187-198 remove_axes (only its shape is used) *)
Definition keepax (n : nat) (axes : list nat) : list nat := filter (fun d => negb (mem d axes)) (seq 0 n).
(* utils.py:187-198 remove_axes, the shape of its result *)
Definition reduced_shape (s : shape) (axes : list nat) : shape := permute (keepax (length s) axes) s.
(* utils.py:201-220 vmap_sequences: a leaf is given by its shape and its axes; None = broadcast error *)
Definition is_some {X} (o : option X) : bool := match o with Some _ => true | None => false end.
(* utils.py:201-220 vmap_sequences: brdcast_shape *)
Definition brdcast_shape (leaves : list (shape * list nat)) : option shape :=
  bshapes (map (fun l => reduced_shape (fst l) (snd l)) leaves).
(* utils.py:201-220 vmap_sequences: keep_idx *)
Definition keep_idx (leaves : list (shape * list nat)) (brd : shape) : list nat :=
  filter (fun i => existsb (fun l => is_some (nth i (vmap_sequence (fst l) brd (snd l)) None)) leaves) (seq 0 (length brd)).
(* utils.py:201-220 vmap_sequences: the result for one leaf *)
Definition leaf_seq (leaves : list (shape * list nat)) (brd : shape) (l : shape * list nat) : list (option nat) :=
  map (fun i => nth i (vmap_sequence (fst l) brd (snd l)) None) (keep_idx leaves brd).
(* utils.py:223-231 arg_squeeze_dims *)
Definition squeeze {X} (axes : list nat) (x : nd X) : nd X :=
  let kp := filter (fun d => mem d axes || negb (Nat.eqb (nth d (sh x) 0) 1)) (seq 0 (ndim x)) in
  Nd (permute kp (sh x)) (fun i => at_ x (map (fun d => if mem d kp then nth (pos d kp) i 0 else 0) (seq 0 (ndim x)))).
(* nested jax.vmap: at batch index b the innermost function receives the array with, for every level, the mapped axis fixed *)
Fixpoint slice_seq {X} (sq : list (option nat)) (b : ix) (x : nd X) : nd X :=
  match sq, b with
  | Some d :: sq', j :: b' => slice_seq sq' b' (take d j x)
  | None :: sq', _ :: b' => slice_seq sq' b' x
  | _, _ => x
  end.

Section Hessian.
Context {A : Type} {RA : CRing A}.
Open Scope cr_scope.

(* ---------- the three strategies ---------- *)
(* jfu.ravel_pytree of a list of arrays: position d of the flat vector is element q of array a *)
Fixpoint unflat (ss : list shape) (d : nat) : nat * ix :=
  match ss with
  | [] => (0%nat, [])
  | s :: ss' => if (d <? prod s)%nat then (0%nat, unravel_ix s d) else let (a, q) := unflat ss' (d - prod s) in (S a, q)
  end.
(* utils.py:89-101 flat_wrap: the length of the flat vector *)
Definition flat_size (ss : list shape) : nat := list_sum (map prod ss).
(* entry (d, e) of the Hessian of output c of flat_wrap(fn) (utils.py:89-101), i.e. of ad.hessian(flat_fn)(flat_x) *)
Definition flat_hess (f : op A) (xs : list (nd A)) (c : ix) (d e : nat) : A :=
  let ss := map (@sh A) xs in
  let (a, q) := unflat ss d in let (b, r) := unflat ss e in o_h f xs c a q b r.

(* utils.py:56-68 get_reduced_jacobians: one matrix (rows, size) per argument *)
Definition get_reduced_jacobians (js : list (jac A)) (idx : option (nd Z)) : option (list (nd A)) :=
  match idx with
  | None => let* dj := sequence (map (@dense_array A RA) js) in
            Some (map (fun x => reshape [rows x; prod (tl (sh x))] x) (extend_jacobians dj))
  | Some o => if Nat.eqb (rows o) 0 then None else
              let* dj := sequence (map (fun j => construct_jac_for_idx j o) js) in
              Some (map (fun x => reshape [rows o; prod (tl (sh x))] x) dj)
  end.
(* hessian.py:40-43 JHJ_via_hessian; G has shape (D, R) *)
Definition JHJ_via_hessian (f : op A) (xs : list (nd A)) (G : nd A) (D R : nat) (c : ix) : A :=
  sumn D (fun d => sumn D (fun e => flat_hess f xs c d e * sumn R (fun r => at_ G [d; r] * at_ G [e; r]))).
(* hessian.py:46-59 JHJ_via_trace: jvp of jvp, then the trace over both tangent axes *)
Definition JHJ_via_trace (f : op A) (xs : list (nd A)) (G : nd A) (D R : nat) (c : ix) : A :=
  let vhvp r' r := sumn D (fun e => sumn D (fun d => flat_hess f xs c d e * at_ G [d; r']) * at_ G [e; r]) in
  sumn R (fun r => vhvp r r).
(* hessian.py:62-70 JHJ_via_hvp *)
Definition JHJ_via_hvp (f : op A) (xs : list (nd A)) (G : nd A) (D R : nat) (c : ix) : A :=
  let HJ d k := sumn D (fun e => flat_hess f xs c d e * at_ G [e; k]) in
  sumn D (fun d => sumn R (fun k => HJ d k * at_ G [d; k])).
(* hessian.py:73-105 general_jac_hessian_jac.  c2r : complex input and real output (the .real is not modelled) *)
Definition general_jhj (f : op A) (c2r : bool) (args : list (lapl A)) (idx : option (nd Z)) : option (nd A) :=
  let xs := xs_of args in
  let* g2 := get_reduced_jacobians (map (@ljac A) args) idx in
  let G := concat0 0 (map (transpose [1%nat; 0%nat]) g2) in                    (* l.95 *)
  let D := rows G in let R := nth 1 (sh G) 0%nat in
  Some (Nd (sh (o_fwd f xs)) (fun c =>
    if (D <? R)%nat then (if c2r then JHJ_via_hvp f xs G D R c else JHJ_via_hessian f xs G D R c)
    else JHJ_via_trace f xs G D R c)).

(* jnp.einsum('ij,ij->', x, y) : axes of size one broadcast; None = size mismatch *)
Definition einsum2 (x y : nd A) : option A :=
  let* s := bshape2 (sh x) (sh y) in
  Some (sumL (allix s) (fun i => at_ x (bproj (sh x) i) * at_ y (bproj (sh y) i))).
(* utils.py:71-78 trace_jac_jacT *)
Definition trace_jac_jacT (a b : jac A) (idx : option (nd Z)) : option A :=
  let* l := get_reduced_jacobians [a; b] idx in
  match l with [x; y] => einsum2 x y | _ => None end.
(* hessian.py:135-146 dot_product_jac_hessian_jac; the result is unravelled into the output of fn, so that has one element *)
Definition dot_jhj (f : op A) (args : list (lapl A)) (idx : option (nd Z)) : option (nd A) :=
  match args with
  | [a; b] => let* t := trace_jac_jacT (ljac a) (ljac b) idx in
              let so := sh (o_fwd f (xs_of args)) in
              if Nat.eqb (prod so) 1 then Some (Nd so (fun _ => (1 + 1) * t)) else None
  | _ => None
  end.
(* x @ y for matrices; None = size mismatch *)
Definition matmul (x y : nd A) : option (nd A) :=
  match sh x, sh y with
  | [m; k], [k'; n] => if Nat.eqb k k' then Some (Nd [m; n] (fun i => sumn k (fun l => at_ x [nth 0 i 0; l]%nat * at_ y [l; nth 1 i 0]%nat))) else None
  | _, _ => None
  end.
(* utils.py:81-86 jac_jacT *)
Definition jac_jacT (a b : jac A) (idx : option (nd Z)) : option (nd A) :=
  let* l := get_reduced_jacobians [a; b] idx in
  match l with [x; y] => matmul x (transpose [1; 0]%nat y) | _ => None end.
(* hessian.py:108-132 off_diagblock_jac_hessian_jac *)
Definition off_diag_jhj (f : op A) (args : list (lapl A)) (idx : option (nd Z)) : option (nd A) :=
  match args with
  | [a; b] =>
      let xs := xs_of args in
      let* m := jac_jacT (ljac a) (ljac b) idx in
      let D1 := prod (sh (lx a)) in let D2 := prod (sh (lx b)) in
      let H c := Nd [D1; D2] (fun i => o_h f xs c 0%nat (unravel_ix (sh (lx a)) (nth 0 i 0%nat)) 1%nat (unravel_ix (sh (lx b)) (nth 1 i 0%nat))) in
      let* _ := bshape2 [D1; D2] (sh m) in
      Some (Nd (sh (o_fwd f xs)) (fun c => match einsum2 (H c) m with Some t => (1 + 1) * t | None => 0 end))
  | _ => None
  end.

(* ---------- index sets ---------- *)
(* hessian.py:149-165 remove_fill of one location *)
Definition remove_fill (l : list Z) : list Z := filter (fun z => (0 <=? z)%Z) l.
(* np.union1d and np.intersect1d *)
Definition union1d (l m : list Z) : list Z := uniqZ (l ++ m).
(* np.intersect1d *)
Definition intersect1d (l m : list Z) : list Z := filter (fun z => zmem z m) (uniqZ l).
Definition jac_axes (axes : list nat) : list nat := map S axes ++ [0%nat].      (* utils.py:247-261 add_vmap_jacobian_dim *)
(* hessian.py:168-195 merge_and_populate: merged list of one location *)
Definition merge_lists (inter : bool) (ls : list (list Z)) : list Z :=
  match ls with [] => [] | l :: ls' => fold_left (if inter then intersect1d else union1d) ls' l end.
(* hessian.py:198-251 find_out_idx.  axs: the axes of every derivative-carrying argument.
   Returns the index array (rows, *kept batch axes) (None when all Jacobians are dense) and dense_out. *)
Definition find_out_idx (args : list (lapl A)) (axs : list (list nat)) (fl : flags) (threshold : Z) : option (option (nd Z) * bool) :=
  if negb (any_weak args) then Some (None, true) else
  let masks := map (fun a => mask (ljac a)) args in
  let leaves := combine (map (@sh Z) masks) (map jac_axes axs) in
  let* brd := brdcast_shape leaves in
  let kb := permute (keep_idx leaves brd) brd in
  let max_size := maxl (map (fun a => length (filter (fun z => (0 <=? z)%Z) (unique_idx (ljac a)))) args) in
  let uniq b ml := let (m, l) := ml : nd Z * (shape * list nat) in
        uniq_size (max_size + 1) (-1)%Z (flat (slice_seq (leaf_seq leaves brd l) b (squeeze (snd l) m))) in
  let at_b b := merge_lists (has LINEAR_IN_ONE fl) (map (fun ml => remove_fill (uniq b ml)) (combine masks leaves)) in
  match allix kb with
  | [] => None
  | _ =>
    let mx := maxl (map (fun b => length (at_b b)) (allix kb)) in
    let idx := Nd (mx :: kb) (fun i => nth (hd 0%nat i) (at_b (tl i)) (-1)%Z) in
    Some (Some idx, (max_size <=? mx)%nat || (threshold <? Z.of_nat mx)%Z)
  end.

(* hessian.py:254-287 remove_zero_entries: the surviving locations, in row-major order (np.where), and the gathered arrays *)
Definition zero_mask (idx : nd Z) (b : ix) : bool :=
  existsb (fun r => negb (Z.eqb (at_ idx (r :: b)) (-1))) (seq 0 (rows idx)).
(* a[(0 or indices) per leading axis of the x array]; [off] = 1 for arrays with a leading Jacobian axis.  Advanced indexing with at
   least one index array gives a new leading axis (after the Jacobian axis); with integers only, no new axis. *)
Definition gather_lead {X} (off : nat) (sx : shape) (nb : nat) (locs : list ix) (x : nd X) : nd X :=
  let adv := existsb (fun d => negb (Nat.eqb (nth d sx 0%nat) 1)) (seq 0 nb) in
  let src (b : ix) := map (fun d => if Nat.eqb (nth d sx 0%nat) 1 then 0%nat else nth d b 0%nat) (seq 0 nb) in
  let pre := firstn off (sh x) in let post := skipn (off + nb) (sh x) in
  if adv then Nd (pre ++ [length locs] ++ post)
                 (fun i => at_ x (firstn off i ++ src (nth (nth off i 0%nat) locs []) ++ skipn (off + 1) i))
  else Nd (pre ++ post) (fun i => at_ x (firstn off i ++ repeat 0%nat nb ++ skipn off i)).
(* hessian.py:254-287 remove_zero_entries: the three arrays of one argument *)
Definition gather_lapl (nb : nat) (locs : list ix) (a : lapl A) : lapl A :=
  let sx := sh (lx a) in
  Lapl (gather_lead 0 sx nb locs (lx a))
       (Jac (gather_lead 1 sx nb locs (jdata (ljac a))) (option_map (gather_lead 1 sx nb locs) (jidx (ljac a))))
       (gather_lead 0 sx nb locs (llap a)).
(* the locations that stay, or None when nothing is removed *)
Definition remove_zero (idx : nd Z) (dense_out : bool) : option (list ix) :=
  let kb := tl (sh idx) in
  let locs := filter (zero_mask idx) (allix kb) in
  if dense_out then None
  else if (prod kb <? 2 * length locs)%nat then None                           (* mask.sum() > 0.5 * mask.size *)
  else Some locs.

(* ---------- vmapped_jac_hessian_jac, hessian.py:290-371 ---------- *)
Definition custom_rule := list (lapl A) -> list (nd A) -> mergefn -> option (nd Z) -> option (nd A).
(* hessian.py:333-350 hess_transform *)
Definition hess_transform (f : op A) (c2r : bool) (fl : flags) (custom : option custom_rule) (mg : mergefn) (dense_out : bool)
    (args : list (lapl A)) (extra : list (nd A)) (idx : option (nd Z)) : option (nd A) :=
  let fm := merged f mg (length args) extra in
  let idx' := if has SPARSE_JHJ fl then idx else if dense_out then None else idx in
  match custom with
  | Some cu => cu args extra mg idx'
  | None => if has MULTIPLICATION fl then dot_jhj fm args idx'
            else if has LINEAR_IN_ONE fl then off_diag_jhj fm args idx'
            else general_jhj fm c2r args idx'
  end.
(* slices of a triple and of the index array *)
Definition slice_lapl (sq sqj : list (option nat)) (axes : list nat) (b : ix) (a : lapl A) : lapl A :=
  Lapl (slice_seq sq b (squeeze axes (lx a)))
       (Jac (slice_seq sqj b (squeeze (jac_axes axes) (jdata (ljac a))))
            (option_map (fun m => slice_seq sqj b (squeeze (jac_axes axes) m)) (jidx (ljac a))))
       (slice_seq sq b (squeeze axes (llap a))).
(* hessian.py:353-361: compacted axes are removed from out_idx and not mapped *)
Fixpoint take_all {X} (c : list nat) (x : nd X) : nd X :=
  match c with [] => x | d :: c' => take d 0 (take_all c' x) end.
(* hessian.py:353-361: the index array of one batch element *)
Definition slice_idx (nb : nat) (b : ix) (idx : nd Z) : nd Z :=
  let (o, c) := compact idx in
  slice_seq (map (fun d => if mem (S d) c then None else Some 1%nat) (seq 0 nb)) b (take_all c o).
(* jnp.zeros_like(out).at[mask].set(result), hessian.py:369-370: the j-th true location of the mask (of shape kb) receives result[j];
   the mask must match the leading axes of out, the result is broadcast to (number of locations, remaining axes) *)
Fixpoint ixpos (p : ix) (l : list ix) : nat := match l with [] => 0%nat | q :: l' => if ixeqb q p then 0%nat else S (ixpos p l') end.
(* hessian.py:363-371 *)
Definition unmask (so kb : shape) (locs : list ix) (res : nd A) : option (nd A) :=
  let nb := length kb in
  if negb (sheq (firstn nb so) kb) then None else
  match bshape2 (sh res) (length locs :: skipn nb so) with
  | Some s => if sheq s (length locs :: skipn nb so)
              then Some (Nd so (fun p => if existsb (ixeqb (firstn nb p)) locs
                                         then at_ res (bproj (sh res) (ixpos (firstn nb p) locs :: skipn nb p)) else 0))
              else None
  | None => None
  end.

(* the batched evaluation, hessian.py:326-371 without the masking step.  The batch axes of idx must be those of the plan
   (number and, unless compacted away, sizes): otherwise jax.vmap(in_axes=1) raises. *)
Definition leaves_of (args : list (lapl A)) (axs : list (list nat)) (extra : list (nd A)) (eaxs : list (list nat)) : list (shape * list nat) :=
  combine (map (fun a => sh (lx a)) args) axs ++ combine (map (@sh A) extra) eaxs.
(* hessian.py:326-371 *)
Definition batched_eval (f : op A) (c2r : bool) (fl : flags) (custom : option custom_rule) (mg : mergefn) (dense_out : bool)
    (args : list (lapl A)) (axs : list (list nat)) (extra : list (nd A)) (eaxs : list (list nat)) (idx : option (nd Z)) : option (nd A) :=
  let leaves := leaves_of args axs extra eaxs in
  let* brd := brdcast_shape leaves in
  let ki := keep_idx leaves brd in
  let kb := permute ki brd in
  if match idx with
     | Some o => negb (Nat.eqb (ndim o) (S (length ki)) &&
                       forallb (fun d => mem (S d) (snd (compact o)) || Nat.eqb (nth (S d) (sh o) 0%nat) (nth d kb 0%nat)) (seq 0 (length ki)))
     | None => false end then None else
  let sqx l := leaf_seq leaves brd l in
  let sqj (a : lapl A) ax := map (fun i => nth i (vmap_sequence (sh (jdata (ljac a))) brd (jac_axes ax)) None) ki in
  let at_b b := hess_transform f c2r fl custom mg dense_out
        (map2 (fun a ax => slice_lapl (sqx (sh (lx a), ax)) (sqj a ax) ax b a) args axs)
        (map2 (fun e ax => slice_seq (sqx (sh e, ax)) b (squeeze ax e)) extra eaxs)
        (option_map (slice_idx (length ki) b) idx) in
  let* rs := sequence (map at_b (allix kb)) in
  let r0_ := hd nd0 rs in
  Some (Nd (kb ++ sh r0_) (fun i => at_ (nth (ravel_ix kb (firstn (length kb) i)) rs nd0) (skipn (length kb) i))).

(* api.py:359-361 FwdLaplArgs.dense *)
Definition args_dense (args : list (lapl A)) : option (list (lapl A)) := sequence (map (@lapl_dense A RA) args).
(* hessian.py:290-371 vmapped_jac_hessian_jac *)
Definition vmapped_jhj (f : op A) (c2r : bool) (fl : flags) (custom : option custom_rule) (extra : list (nd A))
    (axs eaxs : list (list nat)) (mg : mergefn) (threshold : Z) (args : list (lapl A)) : option (nd A) :=
  let so := sh (o_fwd f (mg _ (xs_of args) extra)) in
  let unravel r := if Nat.eqb (prod (sh r)) (prod so) then Some (reshape so r) else None in
  let* (oi, dense_out) := find_out_idx args axs fl threshold in
  let* (args1, oi1) := (if dense_out && negb (has SPARSE_JHJ fl) then let* d := args_dense args in Some (d, None) else Some (args, oi)) in
  match oi1 with
  | Some o =>
      if Nat.eqb (rows o) 0 then Some nd0 else
      match (if has DOT_PRODUCT fl && forallb (fun a => Nat.eqb (length a) 1) axs then Some (remove_zero o dense_out) else None) with
      | Some (Some locs) =>
          (* hessian.py:268-287 and 319-322: gathered arguments (too many indices raise), axes -1 *)
          if existsb (fun a => (ndim (lx a) <? ndim o - 1)%nat) args1 then None else
          let args2 := map (gather_lapl (ndim o - 1) locs) args1 in
          let o2 := Nd [rows o; length locs] (fun i => at_ o (hd 0%nat i :: nth (nth 1 i 0%nat) locs [])) in
          let axs2 := map (fun a => [(ndim (lx a) - 1)%nat]) args2 in
          let* r := batched_eval f c2r fl custom mg dense_out args2 axs2 extra eaxs (Some o2) in
          let* r' := unmask so (tl (sh o)) locs r in unravel r'
      | Some None =>
          let axs2 := map (fun a => [(ndim (lx a) - 1)%nat]) args1 in
          let* r := batched_eval f c2r fl custom mg dense_out args1 axs2 extra eaxs (Some o) in unravel r
      | None => let* r := batched_eval f c2r fl custom mg dense_out args1 axs extra eaxs (Some o) in unravel r
      end
  | None =>
      let* r := batched_eval f c2r fl custom mg dense_out args1
                  (if has DOT_PRODUCT fl && forallb (fun a => Nat.eqb (length a) 1) axs then map (fun a => [(ndim (lx a) - 1)%nat]) args1 else axs)
                  extra eaxs None in unravel r
  end.

(* hessian.py:374-407 get_jacobian_hessian_jacobian_trace.  "tree_leaves(merge(args.x, extra))[0] is args.x[0]": the first of all
   arguments is the first derivative-carrying one (distinct arguments are distinct objects). *)
Definition jhj_trace (f : op A) (c2r : bool) (fl : flags) (custom : option custom_rule) (extra : list (nd A))
    (axs eaxs : list (list nat)) (mg : mergefn) (threshold : Z) (args : list (lapl A)) : option (nd A) :=
  if has LINEAR fl then Some nd0
  else if has LINEAR_IN_ONE fl && Nat.eqb (length args) 1 then Some nd0
  else if has LINEAR_IN_FIRST fl && Nat.eqb (posof mg (length args) (length extra) 0) 0 && Nat.eqb (length args) 1 then Some nd0
  else vmapped_jhj f c2r fl custom extra axs eaxs mg threshold args.
End Hessian.
Arguments custom_rule A : clear implicits.
