(* Props_Slog2.v : C45, slogdet of complex matrices against the derivatives of det/|det| and ln|det|. *)
From Coq Require Import Reals Lra.
From Coquelicot Require Import Coquelicot.
From Verif Require Export Props_Cplx2 CplxSlog.
Set Implicit Arguments.
Open Scope nat_scope.

(* ---- C45: the entries of an array of complex m x m matrices are functions of t along n curves w 0, ..., w (n-1) (the n real input coordinates), and the argument
   carries their first derivatives and the sum of their second derivatives, sparse or dense (along, Props_Cplx2.v).  If no determinant vanishes, the rule for
   slogdet returns the phase det/|det| and ln|det| (det by expansion along the first row, Det.v), each with its value, its derivatives along the curves and the sum of
   its second derivatives. ---- *)
Theorem C45_complex_slogdet_exact : forall (n : nat) (complex_to_real : bool) (threshold : Z) (a : lapl (R * R)) (w : nat -> R -> nd (R * R)) (L : shape) (m : nat) (r : arg (R * R) * arg R),
  0 < n -> along n (AL a) w -> sh (lx a) = L ++ [m; m] -> (forall p, inb p L -> det m (fun i j => at_ (lx a) (p ++ [i; j])) <> (0, 0)%R) ->
  slogdet_complex complex_to_real threshold (AL a) = Some r ->
  exists s b, r = (AL s, AL b) /\ sh (lx s) = L /\ sh (lx b) = L /\ forall p, inb p L ->
    let modulus (z : R * R) := sqrt (fst z * fst z + snd z * snd z) in let d i t := det m (fun k l => at_ (w i t) (p ++ [k; l])) in
    exists (hs : nat -> R * R) (hl : nat -> R),
      (forall i, i < n -> derivs (fun t => (fst (d i t) / modulus (d i t))%R) (fst (at_ (lx s) p)) (fst (jent (ljac s) i p)) (fst (hs i)) /\
                          derivs (fun t => (snd (d i t) / modulus (d i t))%R) (snd (at_ (lx s) p)) (snd (jent (ljac s) i p)) (snd (hs i)) /\
                          derivs (fun t => ln (modulus (d i t))) (at_ (lx b) p) (jent (ljac b) i p) (hl i)) /\
      at_ (llap s) p = sumn n hs /\ at_ (llap b) p = sumn n hl.
Proof.
  intros n c2r th a w L m r Hn HA Hs Hd H. pose proof (@along_track n (AL a) w HA) as HT.
  assert (Hd' : forall p, inb p L -> det m (matC (lx a) p) <> (0, 0)%R) by (intros p Hp; rewrite (@detC_in (lx a) L m p Hs Hp); apply Hd; exact Hp).
  destruct (@slogC_track n c2r th a w L m Hn HT Hs Hd' r H) as (s & b & -> & S1 & S2 & _ & _ & (_ & _ & g & G1 & G2) & (_ & _ & k & K1 & K2)). exists s, b. split; [reflexivity|]. split; [exact S1|]. split; [exact S2|].
  intros p Hp modulus d. rewrite S1 in *. rewrite S2 in *. exists (fun i => g i p), (fun i => k i p). split; [|split; [apply G2; exact Hp|apply K2; exact Hp]].
  intros i Hi. destruct (G1 i Hi) as [_ G3]. destruct (K1 i Hi) as [_ K3]. specialize (G3 p). specialize (K3 p). rewrite S1 in G3. rewrite S2 in K3. specialize (G3 Hp). specialize (K3 Hp). destruct G3 as [G4 G5].
  destruct HA as (_ & _ & HW & _). specialize (HW i Hi). rewrite Hs in HW.
  assert (EW : locally 0%R (fun t => det (msizeC (w i t)) (matC (w i t) p) = d i t)) by (generalize HW; apply filter_imp; intros t Et; rewrite (@msizeC_of (w i t) L m Et); apply (@detC_in (w i t) L m p Et Hp)).
  split; [|split]; apply jet_derivs; (eapply jet2_ext; [|eassumption]); generalize EW; apply filter_imp; intros t Et; cbn [phase_det log_absdetC at_]; rewrite Et; reflexivity.
Qed.
Print Assumptions C45_complex_slogdet_exact.

(* the inverse that the rule uses is the two-sided inverse of every matrix *)
Theorem C45_complex_inverse : forall (x : nd (R * R)) (L : shape) (m : nat) (p : ix), sh x = L ++ [m; m] -> inb p L -> det m (fun i j => at_ x (p ++ [i; j])) <> (0, 0)%R ->
  let A i j := at_ x (p ++ [i; j]) in let N i j := at_ (mat_invC x) (p ++ [i; j]) in
  (forall i j, i < m -> j < m -> sumn m (fun k => rmul (A i k) (N k j)) = if i =? j then (1, 0)%R else (0, 0)%R) /\
  (forall i j, i < m -> j < m -> sumn m (fun k => rmul (N i k) (A k j)) = if i =? j then (1, 0)%R else (0, 0)%R).
Proof.
  intros x L m p Hs Hp Hd A N. assert (HU : rmul (det m (matC x p)) (cinv (det m (matC x p))) = r1) by (apply cinv_mul; rewrite (@detC_in x L m p Hs Hp); exact Hd).
  assert (EN : forall i j, N i j = minvC m (matC x p) i j) by (intros i j; apply (@invC_at x L m p i j Hs)).
  split; intros i j Hi Hj.
  - transitivity (mmul m (matC x p) (minvC m (matC x p)) i j); [|exact (@gminv_right _ CRing_CR _ m (matC x p) i j HU Hi Hj)]. unfold mmul. apply (@sumn_ext _ CRing_CR). intros k Hk. rewrite EN, (@matC_in x L m p i k Hs Hp Hi Hk). reflexivity.
  - transitivity (mmul m (minvC m (matC x p)) (matC x p) i j); [|exact (@gminv_left _ CRing_CR _ m (matC x p) i j HU Hi Hj)]. unfold mmul. apply (@sumn_ext _ CRing_CR). intros k Hk. rewrite EN, (@matC_in x L m p k j Hs Hp Hk Hj). reflexivity.
Qed.
Print Assumptions C45_complex_inverse.

(* met by the matrix [[2 + t + i, 1], [i, 3]] with one input coordinate *)
Definition slz : lapl (R * R) := Lapl (Nd [2; 2] (fun p => match p with [0; 0] => (2, 1)%R | [0; 1] => (1, 0)%R | [1; 0] => (0, 1)%R | _ => (3, 0)%R end))
  (Jac (Nd [1; 2; 2] (fun p => match p with [_; 0; 0] => (1, 0)%R | _ => (0, 0)%R end)) None) (Nd [2; 2] (fun _ => (0, 0)%R)).
Definition slw (i : nat) (t : R) : nd (R * R) := Nd [2; 2] (fun p => match p with [0; 0] => (2 + t, 1)%R | [0; 1] => (1, 0)%R | [1; 0] => (0, 1)%R | _ => (3, 0)%R end).
Example C45_slogdet_hypotheses_met : along 1 (AL slz) slw /\ sh (lx slz) = [] ++ [2; 2] /\ (forall p, inb p [] -> det 2 (fun i j => at_ (lx slz) (p ++ [i; j])) <> (0, 0)%R) /\
  forall c2r, match slogdet_complex c2r 6%Z (AL slz) with Some (AL _, AL _) => True | _ => False end.
Proof.
  split.
  { split; [split; [exists 1; split; [reflexivity|cbn; lia]|reflexivity]|]. split; [intros X; discriminate X|]. split; [intros; apply near_all; reflexivity|]. exists (fun _ _ => (0, 0)%R). split.
    - intros [|i] p Hi Hp; [|lia]. change (inb p [2; 2]) in Hp. inversion Hp as [|x u ? ? Hx Hq]; subst. inversion Hq as [|y v ? ? Hy Hr]; subst. inversion Hr; subst.
      destruct x as [|[|x]]; [| |lia]; (destruct y as [|[|y]]; [| |lia]); split; cbn; try apply jet2_const. apply jet2_ext with (2 := jet2_line 2 1). apply near_all. intros t. ring.
    - intros p Hp. cbn. cc. f_equal; ring. }
  split; [reflexivity|]. split.
  - intros p Hp. inversion Hp; subst. cbn. cc. intros [=]. lra.
  - intros []; vm_compute; exact I.
Qed.
