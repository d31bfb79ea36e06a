(* Api.v : model of folx/api.py (FwdJacobian, FwdLaplArray) and the helpers of folx/utils.py it uses.
   JAC_DIM = 0 throughout (api.py:15).  The number type is an arbitrary commutative ring. *)
From Verif Require Export Nd.
Set Implicit Arguments.

(* ---------- Python level helpers ---------- *)
Definition bind {X Y} (o : option X) (f : X -> option Y) : option Y :=
  match o with Some x => f x | None => None end.
Notation "'let*' x ':=' o 'in' e" := (bind o (fun x => e)) (at level 200, x pattern, right associativity).

(* np.take(arr, [0], axis=d) : keeps axis d with size one *)
Definition take0 {A} (d : nat) (a : nd A) : nd A :=
  Nd (upd d 1 (sh a)) (fun i => at_ a (upd d 0 i)).
(* (np.take(arr,[0],axis=d) == arr).all() *)
Definition const_along (d : nat) (a : nd Z) : bool :=
  forallb (fun i => Z.eqb (at_ a (upd d 0 i)) (at_ a i)) (allix (sh a)).

(* utils.py:413-425 compact_repeated_dims_except, the loop over [dims] *)
Fixpoint compact_loop (dims : list nat) (a : nd Z) : nd Z * list nat :=
  match dims with
  | [] => (a, [])
  | d :: ds =>
      if const_along d a then
        let (b, c) := compact_loop ds (take0 d a) in (b, d :: c)
      else compact_loop ds a
  end.
(* utils.py:413-425 with axis=0: dims = setdiff1d(arange(ndim), [0]) *)
Definition compact (a : nd Z) : nd Z * list nat := compact_loop (seq 1 (ndim a - 1)) a.

(* utils.py:335-358 broadcast_except, inner [broadcast] with axis=0:
   moveaxis(broadcast_to(moveaxis(a, 0, -1), max_post + [a.shape[0]]), -1, 0) *)
Definition bexc1 {A} (post : shape) (a : nd A) : nd A :=
  move_last_0 (broadcast_to (post ++ [rows a]) (move_0_last a)).
(* utils.py:335-358 broadcast_except of a pair with axis=0; None = broadcast error *)
Definition bexc {A B} (a : nd A) (b : nd B) : option (nd A * nd B) :=
  let* post := bshape2 (tl (sh a)) (tl (sh b)) in Some (bexc1 post a, bexc1 post b).
(* the same for a sequence of arrays of one type *)
Definition bexcs {A} (l : list (nd A)) : option (list (nd A)) :=
  let* post := bshapes (map (fun a => tl (sh a)) l) in Some (map (bexc1 post) l).

Section Api.
Context {A : Type} {RA : CRing A}.
Open Scope cr_scope.

(* api.py:19-43 FwdJacobian(data, x0_idx) *)
Record jac := Jac { jdata : nd A; jidx : option (nd Z) }.
(* api.py:45-47 weak *)
Definition weak (J : jac) : bool := match jidx J with Some _ => true | None => false end.
(* api.py:140-141 data_shape *)
Definition data_shape (J : jac) : shape := tl (sh (jdata J)).

(* jax.ops.segment_sum(x, ids, num) of x of shape k :: c, ids of shape [k]: ids outside 0..num-1 are dropped *)
Definition segment_sum (k : nat) (c : shape) (x : nd A) (ids : nat -> Z) (num : nat) : nd A :=
  Nd (num :: c) (fun i => sumn k (fun r => if Z.eqb (ids r) (Z.of_nat (hd 0%nat i)) then at_ x (r :: tl i) else 0)).

(* api.py:58-107 materialize_for_idx.  [st] : idx is a numpy array (static).
   x_shape's "-1" entry is written as num (what reshape infers when no dimension is 0). *)
Definition materialize_for_idx (J : jac) (st : bool) (idx : nd Z) (num : nat) : option (nd A) :=
  let idx1 := if st then fst (compact idx) else idx in                       (* l.73-74 *)
  let* (x, idx2) := bexc (jdata J) idx1 in                                   (* l.77 *)
  let (idx3, copied) := if st then compact idx2 else (idx2, []) in           (* l.80-83 *)
  let indexed := filter (fun d => negb (Nat.eqb d 0) && negb (existsb (Nat.eqb d) copied))
                        (seq 0 (ndim idx3)) in                               (* l.85 *)
  let order := indexed ++ [0%nat] ++ copied in                               (* l.86 *)
  let x4 := transpose order x in                                             (* l.89 *)
  let idx4 := transpose order idx3 in                                        (* l.90 *)
  let ni := length indexed in
  (* l.91 idx[..., 0, ..., 0] *)
  let idx5 := Nd (firstn (ni + 1) (sh idx4)) (fun i => at_ idx4 (i ++ repeat 0%nat (length copied))) in
  let x_shape := firstn ni (sh x4) ++ [num] ++ skipn (ni + 1) (sh x4) in     (* l.93 *)
  let B := prod (firstn ni (sh x4)) in
  let k := nth ni (sh x4) 0%nat in
  let c := skipn (ni + 1) (sh x4) in
  let x6 := reshape (B :: skipn ni (sh x4)) x4 in                            (* l.94-97 *)
  let idx6 := reshape (prod (firstn ni (sh idx5)) :: skipn ni (sh idx5)) idx5 in  (* l.98-101 *)
  (* l.103-105 vmapped segment_sum *)
  let agg := stack B (num :: c) (fun b => segment_sum k c (row x6 b) (fun r => at_ idx6 [b; r]) num) in
  Some (transpose (argsort order) (reshape x_shape agg)).                    (* l.106-108 *)

(* api.py:190-199 mask *)
Definition mask (J : jac) : nd Z :=
  match jidx J with
  | Some m => m
  | None => Nd (sh (jdata J)) (fun i => Z.of_nat (hd 0%nat i))
  end.

(* api.py:109-138 get_index_mask *)
Definition get_index_mask (J : jac) (outputs : nd Z) : option (nd Z) :=
  if Nat.eqb (rows outputs) 0 then None else                                 (* l.128 argmax of an empty axis raises *)
  let* (o, m) := bexc outputs (mask J) in                                    (* l.119 *)
  let og := tl (sh m) in                                                     (* l.121 *)
  let P := prod og in
  let fm := transpose [1%nat; 0%nat] (reshape [rows m; P] m) in              (* l.122 *)
  let fo := transpose [1%nat; 0%nat] (reshape [rows o; P] o) in              (* l.123 *)
  let outs (b : nat) := map (fun s => at_ fo [b; s]) (seq 0 (rows o)) in
  (* l.125-130: first match or -1 *)
  let get b r := if zmem (at_ fm [b; r]) (outs b) then Z.of_nat (argmax_eq (at_ fm [b; r]) (outs b)) else (-1)%Z in
  let res := Nd [P; rows m] (fun i => get (nth 0 i 0%nat) (nth 1 i 0%nat)) in
  Some (reshape (sh m) (transpose [1%nat; 0%nat] res)).                      (* l.131-134 *)

(* data[idx] : negative indices count from the end, larger ones are clamped (jax gather) *)
Definition wrap_ix (n : nat) (i : Z) : nat :=
  let j := if (i <? 0)%Z then (i + Z.of_nat n)%Z else i in
  Z.to_nat (Z.min (Z.max j 0) (Z.of_nat n - 1)).
(* jax array indexing data[idx] along axis 0 (api.py:158) *)
Definition fancy0 (a : nd A) (idx : nd Z) : nd A :=
  Nd (sh idx ++ tl (sh a))
     (fun i => at_ a (wrap_ix (rows a) (at_ idx (firstn (ndim idx) i)) :: skipn (ndim idx) i)).

(* api.py:171-175 max_n : np.max(x0_idx) (ValueError when empty, modelled as None) *)
Definition max_n (J : jac) : option Z :=
  match jidx J with
  | Some m => match flat m with [] => None | z :: l => Some (fold_left Z.max l z) end
  | None => Some (Z.of_nat (rows (jdata J)))
  end.

(* api.py:143-159 construct_jac_for, idx not None *)
Definition construct_jac_for_idx (J : jac) (idx : nd Z) : option (nd A) :=
  if Nat.eqb (rows idx) 0 then Some (Nd (1%nat :: data_shape J) (fun _ => 0))
  else match jidx J with
       | None => Some (fancy0 (jdata J) idx)
       | Some _ => let* im := get_index_mask J idx in materialize_for_idx J true im (rows idx)
       end.
(* np.arange(n)[(..., None, ..., None)] *)
Definition arange_ext (n : nat) (s : shape) : nd Z :=
  Nd (n :: map (fun _ => 1%nat) s) (fun i => Z.of_nat (hd 0%nat i)).
(* api.py:161-169 dense_array *)
Definition dense_array (J : jac) : option (nd A) :=
  match jidx J with
  | None => Some (jdata J)
  | Some _ => let* mx := max_n J in
              construct_jac_for_idx J (arange_ext (Z.to_nat (mx + 1)) (data_shape J))
  end.
(* api.py:143-159 construct_jac_for *)
Definition construct_jac_for (J : jac) (idx : option (nd Z)) : option (nd A) :=
  match idx with None => dense_array J | Some i => construct_jac_for_idx J i end.
(* api.py:177-179 as_dense *)
Definition as_dense (J : jac) : option jac := let* d := dense_array J in Some (Jac d None).

(* utils.py:361-379 extend_jacobians, axis=0 : one array padded with zero rows *)
Definition extend1 (n : nat) (a : nd A) : nd A :=
  if (rows a <? n)%nat then concat0 0 [a; Nd ((n - rows a)%nat :: tl (sh a)) (fun _ => 0)] else a.
(* Python max of a list of sizes *)
Definition maxl (l : list nat) : nat := fold_right Nat.max 0%nat l.
(* utils.py:361-379 extend_jacobians *)
Definition extend_jacobians (l : list (nd A)) : list (nd A) :=
  match l with
  | [a] => [a]
  | _ => let m := maxl (map rows l) in
         if forallb (fun a => Nat.eqb (rows a) m) l then l else map (extend1 m) l
  end.
(* utils.py:520-525 add_jacobians *)
Definition bin (f : A -> A -> A) (a b : nd A) : option (nd A) :=
  let* s := bshape2 (sh a) (sh b) in
  Some (Nd s (fun i => f (at_ a (bproj (sh a) i)) (at_ b (bproj (sh b) i)))).
(* utils.py:520-525 add_jacobians *)
Definition add_jacobians (a b : nd A) : option (nd A) :=
  match extend_jacobians [a; b] with [x; y] => bin radd x y | _ => None end.

(* (other.x0_idx == self.x0_idx).all() : numpy broadcasting comparison; None = ValueError *)
Definition np_eq_all (a b : nd Z) : option bool :=
  let* s := bshape2 (sh a) (sh b) in
  Some (forallb (fun i => Z.eqb (at_ a (bproj (sh a) i)) (at_ b (bproj (sh b) i))) (allix s)).

(* api.py:208-224 __add__ *)
Definition jadd (J K : jac) : option jac :=
  match jidx J, jidx K with
  | Some mj, Some mk =>
      let* e := np_eq_all mk mj in
      if e then
        let* d := bin radd (jdata J) (jdata K) in
        let* s := bshape2 (sh mj) (sh mk) in
        Some (Jac d (Some (broadcast_to s mj)))
      else Some (Jac (concat0 0 [jdata J; jdata K]) (Some (concat0 (-1)%Z [mj; mk])))
  | _, _ =>
      let* a := dense_array J in let* b := dense_array K in
      let* d := add_jacobians a b in Some (Jac d None)
  end.

(* api.py:241-250 FwdLaplArray *)
Record lapl := Lapl { lx : nd A; ljac : jac; llap : nd A }.
(* api.py:280-281 dense *)
Definition lapl_dense (a : lapl) : option lapl :=
  let* j := as_dense (ljac a) in Some (Lapl (lx a) j (llap a)).
(* api.py:49-56 unique_idx *)
Definition unique_idx (J : jac) : list Z :=
  match jidx J with
  | Some m => uniqZ (flat m)
  | None => map Z.of_nat (seq 0 (rows (jdata J)))
  end.
End Api.
Arguments jac A : clear implicits.
Arguments lapl A : clear implicits.
Arguments Jac {A} jdata jidx.
Arguments Lapl {A} lx ljac llap.
