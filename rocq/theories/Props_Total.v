(* Props_Total.v : results exist.  The property theorems say what a returned result is; here, for Jacobians stored densely: the functions return. *)
From Coq Require Import Reals.
From Verif Require Export TotalCalc.
Set Implicit Arguments.
Open Scope nat_scope.
Open Scope cr_scope.

(* C13: first order, every function, any number of arguments *)
Theorem C13_dense_returns : forall (A : Type) (RA : CRing A) (n : nat) (F : fn A) (mg : mergefn) (extra : list (nd A)) (threshold : Z) (fl : flags) (in_axes : option (list Z)) (args : list (lapl A)),
  args <> [] -> (forall a, In a args -> awf n a) -> (forall a, In a args -> jidx (ljac a) = None) -> exists r, jvp_fn F mg extra threshold fl in_axes args = Some r.
Proof. intros A RA n F mg extra th fl ax args Hne HW HD. destruct (@jvp_fn_total A RA n F mg extra th fl ax args Hne HD HW) as (y & g & l & E & _). eauto. Qed.
Print Assumptions C13_dense_returns.
(* C16: second order, functions without product flags; all batch axes *)
Theorem C16_dense_returns : forall (A : Type) (RA : CRing A) (n : nat) (f : op A) (complex_to_real : bool) (fl : flags) (extra : list (nd A)) (axs eaxs : list (list nat)) (mg : mergefn) (threshold : Z) (args : list (lapl A)),
  setup n f mg args axs extra eaxs -> has LINEAR_IN_ONE fl = false -> (forall a, In a args -> jidx (ljac a) = None) ->
  exists r, vmapped_jhj f complex_to_real fl None extra axs eaxs mg threshold args = Some r /\ sh r = sh (o_fwd f (mg _ (xs_of args) extra)).
Proof. exact @vmapped_general_total. Qed.
Print Assumptions C16_dense_returns.
(* C18: products *)
Theorem C18_dense_returns : forall (A : Type) (RA : CRing A) (n : nat) (complex_to_real : bool) (threshold : Z) (u v : arg A),
  (0 < n)%nat -> vok n u -> vok n v -> Forall (@dense_arg A) [u; v] ->
  (bshapes [sh (aval u); sh (aval v)] <> None -> exists r, wrap_fl mul_rule complex_to_real threshold [u; v] = Some r) /\
  (forall px py K so, sh (aval u) = px ++ [K] -> sh (aval v) = py ++ [K] -> length px = length py -> bshape2 px py = Some so -> exists r, wrap_fl dotlast_rule complex_to_real threshold [u; v] = Some r).
Proof.
  intros A RA n c2r th u v Hn Hu Hv HD. split.
  - apply (@mul_total A RA n c2r th u v Hn Hu Hv HD).
  - intros px py K so E1 E2 E3 E4. apply (@dotlast_total A RA n c2r th u v px py K so Hn Hu Hv HD E1 E2 E3 E4).
Qed.
Print Assumptions C18_dense_returns.
(* C20: division (any total function [inv] in place of the reciprocal) *)
Theorem C20_dense_returns : forall (A : Type) (RA : CRing A) (inv : A -> A) (n : nat) (complex_to_real : bool) (threshold : Z) (u v : arg A),
  (0 < n)%nat -> vok n u -> vok n v -> Forall (@dense_arg A) [u; v] -> bshapes [sh (aval u); sh (aval v)] <> None -> exists r, wrap_fl (div_rule inv) complex_to_real threshold [u; v] = Some r.
Proof. exact @div_total. Qed.
Print Assumptions C20_dense_returns.
(* C24: dot_general *)
Theorem C24_dense_returns : forall (A : Type) (RA : CRing A) (n : nat) (complex_to_real : bool) (threshold : Z) (D : dims) (u v : arg A),
  (0 < n)%nat -> vok n u -> vok n v -> Forall (@dense_arg A) [u; v] -> dims_ok D (sh (aval u)) (sh (aval v)) -> exists r, dot_general complex_to_real threshold D u v = Some r.
Proof. exact @dot_general_total. Qed.
Print Assumptions C24_dense_returns.
(* a plain matrix times the input vector x of length 2 *)
Definition exM : arg Z := AX (Nd [3; 2]%nat (fun p => Z.of_nat (nth 0 p 0 + nth 1 p 0)%nat)).
Definition exV : arg Z := AL (Lapl (Nd [2]%nat (fun p => Z.of_nat (nth 0 p 0)%nat)) (Jac (Nd [2; 2]%nat (fun p => if Nat.eqb (nth 0 p 0%nat) (nth 1 p 0%nat) then 1%Z else 0%Z)) None) (Nd [2]%nat (fun _ => 0%Z))).
Example Total_hypotheses_met : vok 2 exM /\ vok 2 exV /\ Forall (@dense_arg Z) [exM; exV] /\ dims_ok (Dims [1%nat] [0%nat] [] []) (sh (aval exM)) (sh (aval exV)).
Proof.
  split; [exact I|]. split.
  - split; [split; [|reflexivity]|intros X; discriminate X]. exists 2%nat. split; [reflexivity|]. cbn. lia.
  - split; [repeat constructor|]. unfold dims_ok. cbn. repeat match goal with |- _ /\ _ => split end; try reflexivity; try (intros d [<-|[]]; lia); constructor; try (intros []); constructor.
Qed.
