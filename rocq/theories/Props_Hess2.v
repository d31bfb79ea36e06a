(* Props_Hess2.v : property theorems C22 (slogdet), C23 (batching plan), C34 (argument splitting), C41 (shortcuts), C42 (custom rules). *)
From Verif Require Import Check Slog.
Set Implicit Arguments.
Local Open Scope cr_scope.
Definition gotw (o : option (arg Z * arg Z)) : arg Z * arg Z := match o with Some r => r | None => (AX nd0, AX nd0) end.
Lemma gotw_ok o : match o with Some _ => true | None => false end = true -> o = Some (gotw o).
Proof. destruct o; cbn; congruence. Qed.
(* value, Jacobian indices, Jacobian data, Laplacian of an argument *)
Definition showa (v : arg Z) : shape * list Z * option (list Z) * list Z * list Z :=
  match v with AL a => (sh (lx a), flat (lx a), option_map flat (jidx (ljac a)), flat (jdata (ljac a)), flat (llap a)) | AX x => (sh x, flat x, None, [], []) end.

(* ---- C22: slogdet of real m x m matrices with leading axes L.  [mi] is the matrix inverse, [ld] is log|det|, [sgn] is the sign (their defining
   equations and the fact that these are the derivatives of log|det| are in Props_Slog.v).  For every input Jacobian (sparse or dense) and
   every threshold: the sign carries no derivatives, and with N = A^-1 at batch element p
     d_i logdet = tr(N d_iA),   lapl logdet = tr(N lapl A) - sum_i tr(N d_iA N d_iA). ---- *)
Theorem C22_slogdet_exact : forall (A : Type) (RA : CRing A) (sgn ld mi : nd A -> nd A) (n : nat) (complex_to_real : bool) (threshold : Z) (a : lapl A) (L : shape) (m : nat) (r : arg A * arg A),
  (0 < n)%nat -> awf n a -> jrow1 (ljac a) -> sh (lx a) = L ++ [m; m] -> ext1 mi -> (forall x, sh x = L ++ [m; m] -> sh (mi x) = L ++ [m; m]) ->
  slogdet_wrapper sgn ld mi complex_to_real threshold (AL a) = Some r ->
  fst r = AX (sgn (lx a)) /\ exists b, snd r = AL b /\ awf n b /\ sh (lx b) = L /\
  forall p, inb p L ->
    let N i j := at_ (mi (lx a)) (p ++ [i; j]) in let dA i s t := jent (ljac a) i (p ++ [s; t]) in
    let NdA i s t := sumn m (fun u => N s u * dA i u t) in
    at_ (lx b) p = at_ (ld (lx a)) p /\
    (forall i, jent (ljac b) i p = sumn m (fun s => NdA i s s)) /\
    at_ (llap b) p = sumn m (fun s => sumn m (fun t => N s t * at_ (llap a) (p ++ [t; s]))) - sumn n (fun i => sumn m (fun s => sumn m (fun t => NdA i t s * NdA i s t))).
Proof.
  intros A RA sgn ld mi n c2r th a L m r Hn Hw Hr Hs He Hm H. destruct (@slogdet_sound A RA sgn ld mi n c2r th a L m r Hn (conj Hw Hr) Hs He Hm H) as (H1 & b & H2 & H3 & H4).
  split; [exact H1|]. exists b. split; [exact H2|]. destruct (@logdet_forms A RA ld mi n a b L m Hn Hs H3) as [F1 F2]. split; [apply H3|]. split; [exact F1|].
  intros p Hp. destruct (F2 p Hp) as (G1 & G2 & G3). cbn zeta. split; [exact G1|]. split; [exact G2|]. exact G3.
Qed.
Print Assumptions C22_slogdet_exact.
(* 2x2 matrices of determinant 1, [[1+u0, 2u1],[u1, 1]] at u = 0 and [[2, 1],[1+u2, 1]] *)
Definition inv2 (x : nd Z) : nd Z := Nd (sh x) (fun i => let p := firstn (length i - 2) i in match skipn (length i - 2) i with
  | [O; O] => at_ x (p ++ [1; 1]%nat) | [S O; S O] => at_ x (p ++ [0; 0]%nat) | q => (- at_ x (p ++ q))%Z end).
Definition exM : lapl Z := sp [2; 2; 2]%nat [1; 0; 0; 1; 2; 1; 1; 1]%Z 1 [0; 1; 1; -1; -1; -1; 2; -1]%Z [1; 2; 1; 0; 0; 0; 1; 0]%Z [0; 0; 0; 0; 0; 0; 0; 0]%Z.
Example C22_hypotheses_met : awf 3 exM /\ jrow1 (ljac exM) /\
  (forall p i k, In p [[0]; [1]]%nat -> (i < 2)%nat -> (k < 2)%nat -> sumn 2 (fun j => at_ (inv2 (lx exM)) (p ++ [i; j]) * at_ (lx exM) (p ++ [j; k])) = if Nat.eqb i k then 1 else 0) /\
  showa (snd (gotw (slogdet_wrapper (fun x => Nd [2]%nat (fun _ => 1)) (fun x => Nd [2]%nat (fun _ => 0)) inv2 false 3 (AL exM)))) =
    ([2]%nat, [0; 0]%Z, None, [1; 0; 0; 0; 0; -1]%Z, [-5; -1]%Z).
Proof.
  split; [apply awfb_ok; reflexivity|]. split; [apply jrow1b_ok; reflexivity|]. split; [|vmr].
  intros p i k Hp Hi Hk. destruct Hp as [<-|[<-|[]]]; destruct i as [|[|i]]; try lia; destruct k as [|[|k]]; try lia; vmr.
Qed.

(* ---- C23: for every batch index b of the broadcast shape of all leaves, the (filtered) plan of every leaf extracts the numpy-broadcast slice:
   keep the coordinates on the skipped axes, read the others off b (right-aligned, size-one axes read at 0). ---- *)
Theorem C23_plan_selects_slice : forall (X : Type) (leaves : list (shape * list nat)) (brd : shape) (axes : list nat) (b : ix) (x : nd X),
  brdcast_shape leaves = Some brd -> In (sh x, axes) leaves -> NoDup axes -> (forall d, In d axes -> d < ndim x)%nat -> inb b brd ->
  let got := slice_seq (leaf_seq leaves brd (sh x, axes)) (permute (keep_idx leaves brd) b) (squeeze axes x) in
  let kept := filter (fun d => mem d axes) (seq 0 (ndim x)) in let mapped := filter (fun d => negb (mem d axes)) (seq 0 (ndim x)) in
  sh got = map (fun d => nth d (sh x) 0%nat) kept /\
  forall j, inb j (sh got) -> exists q, inb q (sh x) /\ at_ got j = at_ x q /\
    map (fun d => nth d q 0%nat) kept = j /\ map (fun d => nth d q 0%nat) mapped = bproj (map (fun d => nth d (sh x) 0%nat) mapped) b.
Proof.
  intros X leaves brd axes b x HB Hin Hnd Hd Hb got kept mapped. destruct (@leaf_slice X leaves brd axes b x HB Hin (conj Hnd Hd) Hb) as [H1 H2]. fold got in H1, H2.
  set (s := sax (ndim x) axes). assert (Es : sax (ndim x) axes = kept) by reflexivity.
  assert (Ek : keep_pos (ndim x) s = mapped) by (unfold s; rewrite sax_keep; reflexivity).
  assert (Hs1 : forall d, In d s -> (d < ndim x)%nat) by (intros d H; apply sax_In in H; tauto).
  split; [rewrite H1; reflexivity|]. intros j Hj.
  exists (weave (ndim x) s (bproj (permute (keep_pos (ndim x) s) (sh x)) b) j).
  assert (Hbt : bto (permute mapped (sh x)) brd) by (pose proof (@brd_bto _ _ _ HB Hin) as Hx; exact Hx).
  assert (Hbp : inb (bproj (permute (keep_pos (ndim x) s) (sh x)) b) (permute (keep_pos (ndim x) s) (sh x))) by (rewrite Ek; apply (bproj_inb Hbt Hb)).
  rewrite H1 in Hj. cbn [bslice sh] in Hj. fold s in Hj.
  assert (Lj : length j = length s) by (apply inb_length in Hj; unfold permute in Hj; rewrite map_length in Hj; exact Hj).
  assert (Li : length (bproj (permute (keep_pos (ndim x) s) (sh x)) b) = length (keep_pos (ndim x) s)).
  { apply inb_length in Hbp. rewrite Hbp. unfold permute. apply map_length. }
  split; [|split; [|split]].
  - apply weave_inb; auto. unfold s; apply sax_NoDup.
  - rewrite H2; [reflexivity|]. unfold ndim. rewrite H1. cbn [bslice sh]. apply inb_length. exact Hj.
  - rewrite <- Es. fold s. apply (@weave_axes (ndim x) s); auto. unfold s; apply sax_NoDup.
  - rewrite <- Ek. apply (@weave_keep (ndim x) s); auto.
Qed.
Print Assumptions C23_plan_selects_slice.
(* the Jacobian of a leaf (one extra leading axis, always skipped) is sliced along with it *)
Theorem C23_jacobian_follows : forall (X : Type) (leaves : list (shape * list nat)) (brd : shape) (axes : list nat) (b : ix) (J : nd X) (k : nat) (s : shape),
  brdcast_shape leaves = Some brd -> In (s, axes) leaves -> NoDup axes -> (forall d, In d axes -> d < length s)%nat -> inb b brd -> sh J = k :: s ->
  let got := slice_seq (map (fun i => nth i (vmap_sequence (sh J) brd (jac_axes axes)) None) (keep_idx leaves brd)) (permute (keep_idx leaves brd) b) (squeeze (jac_axes axes) J) in
  let kept := filter (fun d => mem d axes) (seq 0 (length s)) in let mapped := filter (fun d => negb (mem d axes)) (seq 0 (length s)) in
  sh got = k :: map (fun d => nth d s 0%nat) kept /\
  forall r j, inb (r :: j) (sh got) -> exists q, inb q s /\ at_ got (r :: j) = at_ J (r :: q) /\
    map (fun d => nth d q 0%nat) kept = j /\ map (fun d => nth d q 0%nat) mapped = bproj (map (fun d => nth d s 0%nat) mapped) b.
Proof.
  intros X leaves brd axes b J k s0 HB Hin Hnd Hd Hb HJ got kept mapped. destruct (@jac_slice X leaves brd axes b J k s0 HB Hin (conj Hnd Hd) Hb HJ) as [H1 H2]. fold got in H1, H2.
  unfold jslice in H1, H2. cbn [sh at_] in H1, H2. rewrite (rows_cons _ HJ) in H1.
  set (s := sax (length s0) axes) in *. assert (Es : s = kept) by reflexivity.
  assert (Ek : keep_pos (length s0) s = mapped) by (unfold s; rewrite sax_keep; reflexivity).
  assert (Hs1 : forall d, In d s -> (d < length s0)%nat) by (intros d H; apply sax_In in H; tauto).
  split; [rewrite H1; reflexivity|]. intros r j Hj. rewrite H1 in Hj. inversion Hj as [|r' k' j' t' Hr Hj' E1 E2]; subst r' k' j' t'.
  exists (weave (length s0) s (bproj (permute (keep_pos (length s0) s) s0) b) j).
  assert (Hbt : bto (permute mapped s0) brd) by (pose proof (@brd_bto _ _ _ HB Hin) as Hx; exact Hx).
  assert (Hbp : inb (bproj (permute (keep_pos (length s0) s) s0) b) (permute (keep_pos (length s0) s) s0)) by (rewrite Ek; apply (bproj_inb Hbt Hb)).
  assert (Lj : length j = length s) by (apply inb_length in Hj'; unfold permute in Hj'; rewrite map_length in Hj'; exact Hj').
  assert (Li : length (bproj (permute (keep_pos (length s0) s) s0) b) = length (keep_pos (length s0) s)).
  { apply inb_length in Hbp. rewrite Hbp. unfold permute. apply map_length. }
  split; [|split; [|split]].
  - apply weave_inb; auto. unfold s; apply sax_NoDup.
  - rewrite H2; [reflexivity|]. unfold ndim. rewrite H1. apply inb_length in Hj. exact Hj.
  - rewrite <- Es. apply (@weave_axes (length s0) s); auto. unfold s; apply sax_NoDup.
  - rewrite <- Ek. apply (@weave_keep (length s0) s); auto.
Qed.
Print Assumptions C23_jacobian_follows.
(* shapes (4,2,3) with axis 2 skipped and (1,5) with axis 1 skipped and (2) with nothing skipped: batch shape (4,2) *)
Definition ex23 : list (shape * list nat) := [([4; 2; 3], [2]); ([1; 5], [1]); ([2], [])]%nat.
Definition ex23x : nd Z := arr [1; 5]%nat [10; 11; 12; 13; 14]%Z.
Example C23_hypotheses_met : brdcast_shape ex23 = Some [4; 2]%nat /\ In (sh ex23x, [1]%nat) ex23 /\ inb [3; 1]%nat [4; 2]%nat /\
  flat (slice_seq (leaf_seq ex23 [4; 2]%nat (sh ex23x, [1]%nat)) (permute (keep_idx ex23 [4; 2]%nat) [3; 1]%nat) (squeeze [1]%nat ex23x)) = [10; 11; 12; 13; 14]%Z.
Proof. split; [reflexivity|]. split; [cbn; auto|]. split; [repeat constructor|vmr]. Qed.

(* ---- C34 ---- *)
Theorem C34_merge_restores : forall (X : Type) (mask : list bool) (leaves : list X), length mask = length leaves ->
  merge_of mask (select true mask leaves) (select false mask leaves) = leaves.
Proof. exact @split_merge. Qed.
Theorem C34_split_restores : forall (X : Type) (mask : list bool) (lapl extra : list X),
  length lapl = length (filter (fun b => b) mask) -> length extra = length (filter negb mask) ->
  length (merge_of mask lapl extra) = length mask /\ select true mask (merge_of mask lapl extra) = lapl /\ select false mask (merge_of mask lapl extra) = extra.
Proof.
  intros X mask l m H1 H2. apply merge_split; unfold count; [rewrite H1|rewrite H2]; f_equal; apply filter_ext; intros []; reflexivity.
Qed.
(* with the mask folx computes from the arguments: every argument comes back at its place, derivative-carrying ones among the first group *)
Theorem C34_arguments_restored : forall (A : Type) (args : list (arg A)),
  merge_of (mask_of args) (map (@lx A) (als args)) (exs args) = map (fun v => match v with AL a => lx a | AX x => x end) args /\
  map AL (als args) = filter (fun v => match v with AL _ => true | AX _ => false end) args /\ map AX (exs args) = filter (fun v => match v with AL _ => false | AX _ => true end) args.
Proof.
  intros A args. split; [apply merge_avals|]. split; induction args as [|[a|x] l IH]; cbn; auto; f_equal; exact IH.
Qed.
Print Assumptions C34_merge_restores. Print Assumptions C34_split_restores. Print Assumptions C34_arguments_restored.
Example C34_concrete : let mask := [false; true; true; false; true] in
  select true mask [10; 11; 12; 13; 14]%Z = [11; 12; 14]%Z /\ select false mask [10; 11; 12; 13; 14]%Z = [10; 13]%Z /\ merge_of mask [11; 12; 14]%Z [10; 13]%Z = [10; 11; 12; 13; 14]%Z.
Proof. repeat split. Qed.

(* ---- C41: whenever a flag makes folx skip the Hessian term of the derivative-carrying arguments, that term is zero ---- *)
Theorem C41_shortcuts_sound : forall (A : Type) (RA : CRing A) (n : nat) (f : op A) (complex_to_real : bool) (fl : flags) (custom : option (custom_rule A)) (extra : list (nd A))
    (axs eaxs : list (list nat)) (mg : mergefn) (threshold : Z) (args : list (lapl A)),
  merge_ok mg (length args) (length extra) -> truthful f fl (mg _ (xs_of args) extra) ->
  has LINEAR fl = true \/ (has LINEAR_IN_ONE fl = true /\ length args = 1%nat) \/ (has LINEAR_IN_FIRST fl = true /\ length args = 1%nat /\ posof mg (length args) (length extra) 0 = 0%nat) ->
  jhj_trace f complex_to_real fl custom extra axs eaxs mg threshold args = Some nd0 /\
  forall p, inb p (sh (o_fwd (merged f mg (length args) extra) (xs_of args))) -> hspec n (merged f mg (length args) extra) args p = 0.
Proof.
  intros A RA n f c2r fl cu ex axs eaxs mg th args Hm Ht H. apply shortcut_sound; auto. destruct H as [->|[[-> ->]|(-> & -> & ->)]]; cbn; rewrite ?orb_true_r; reflexivity.
Qed.
Print Assumptions C41_shortcuts_sound.
(* and only then: otherwise the term is computed *)
Theorem C41_only_shortcuts_skip : forall (A : Type) (RA : CRing A) (f : op A) (complex_to_real : bool) (fl : flags) (custom : option (custom_rule A)) (extra : list (nd A))
    (axs eaxs : list (list nat)) (mg : mergefn) (threshold : Z) (args : list (lapl A)),
  ~ (has LINEAR fl = true \/ (has LINEAR_IN_ONE fl = true /\ length args = 1%nat) \/ (has LINEAR_IN_FIRST fl = true /\ length args = 1%nat /\ posof mg (length args) (length extra) 0 = 0%nat)) ->
  jhj_trace f complex_to_real fl custom extra axs eaxs mg threshold args = vmapped_jhj f complex_to_real fl custom extra axs eaxs mg threshold args.
Proof.
  intros A RA f c2r fl cu ex axs eaxs mg th args H. unfold jhj_trace. destruct (has LINEAR fl) eqn:E1; [exfalso; auto|].
  destruct (has LINEAR_IN_ONE fl && Nat.eqb (length args) 1) eqn:E2.
  - exfalso. apply H. right. left. apply andb_true_iff in E2. destruct E2 as [-> E2]. apply Nat.eqb_eq in E2. auto.
  - destruct (has LINEAR_IN_FIRST fl && Nat.eqb (posof mg (length args) (length ex) 0) 0 && Nat.eqb (length args) 1) eqn:E3; [|reflexivity].
    exfalso. apply H. right. right. apply andb_true_iff in E3. destruct E3 as [E3 E4]. apply andb_true_iff in E3. destruct E3 as [-> E3]. apply Nat.eqb_eq in E3, E4. auto.
Qed.
Print Assumptions C41_only_shortcuts_skip.
Definition ex41 : lapl Z := sp [2]%nat [3; 4]%Z 1 [0; 1]%Z [1; 1]%Z [5; 6]%Z.
(* x * c with c constant: LINEAR_IN_ONE (part of MULTIPLICATION) with one derivative-carrying argument *)
Example C41_hypotheses_met : let mg := merge_of [true; false] in merge_ok mg 1 1 /\ has LINEAR_IN_ONE MULTIPLICATION = true /\
  truthful op_mul MULTIPLICATION (mg _ (xs_of [ex41]) [arr [2]%nat [7; 8]%Z]) /\ (1 <= length (flat (lx ex41)))%nat.
Proof.
  split; [apply (merge_of_ok [true; false])|]. split; [reflexivity|]. split; [|cbn; lia].
  split; [intros H; vm_compute in H; discriminate H|]. split.
  - intros _ p q r _ _ _. cbn. destruct (_ && _); reflexivity.
  - intros _ a Ha p q r _ _ _. cbn in Ha. destruct a as [|[|a]]; [| |lia]; cbn; destruct (_ && _); reflexivity.
Qed.

(* ---- C42 ---- *)
(* the Laplacian of the result is the pushed-forward Laplacian plus the Hessian term *)
Theorem C42_added_on_top : forall (A : Type) (RA : CRing A) (R : rule A) (complex_to_real : bool) (threshold : Z) (args : list (arg A)) (a : lapl A) (axs eaxs : list (list nat)),
  als args <> [] -> wrap_fl R complex_to_real threshold args = Some (AL a) ->
  sequence (map (fun a => canon_axes (ndim (lx a)) (r_axes R)) (als args)) = Some axs -> sequence (map (fun x => canon_axes (ndim x) (r_axes R)) (exs args)) = Some eaxs ->
  exists y g l h, jvp_fn (r_fn R) (merge_of (mask_of args)) (exs args) threshold (r_fl R) (r_axes R) (als args) = Some (y, g, l) /\
    jhj_trace (f_op (r_fn R)) complex_to_real (r_fl R) (r_custom R) (exs args) axs eaxs (merge_of (mask_of args)) threshold (als args) = Some h /\
    lx a = y /\ ljac a = g /\ bin radd l h = Some (llap a).
Proof.
  intros A RA R c2r th args a axs eaxs Hne H Ea Ee. unfold wrap_fl in H. rewrite Ea, Ee in H. cbn [bind] in H.
  assert (HX : forall (X : Type) (u v : X), match als args with [] => u | _ :: _ => v end = v) by (intros; destruct (als args); congruence). rewrite HX in H. clear HX.
  destruct (jvp_fn _ _ _ _ _ _ _) as [[[y g] l]|] eqn:E1; [|discriminate]. cbn [bind] in H.
  destruct (jhj_trace _ _ _ _ _ _ _ _ _ _) as [h|] eqn:E2; [|discriminate]. cbn [bind] in H.
  destruct (bin radd l h) as [l2|] eqn:E3; [|discriminate]. cbn [bind] in H. destruct (r_float R); [|discriminate].
  exists y, g, l, h. apply (f_equal (fun o => match o with Some (AL t) => t | _ => a end)) in H. cbv beta iota in H. subst a. cbn. auto.
Qed.
(* With a custom rule, no shortcut flag and no LINEAR_IN_ONE/DOT_PRODUCT flag the term is, at every batch index b, exactly what the rule returns for
   the slices of the arguments at b (densified when the threshold is exceeded), or zero when no input reaches any argument. *)
Theorem C42_rule_verbatim : forall (A : Type) (RA : CRing A) (n : nat) (f : op A) (complex_to_real : bool) (fl : flags) (cu : custom_rule A) (extra : list (nd A))
    (axs eaxs : list (list nat)) (mg : mergefn) (threshold : Z) (args : list (lapl A)) (r : nd A) (C brd : shape),
  setup n f mg args axs extra eaxs -> has LINEAR fl = false -> has LINEAR_IN_ONE fl = false -> has LINEAR_IN_FIRST fl = false ->
  (forall args' es idx' r0, cu args' es mg idx' = Some r0 -> sh r0 = C) ->
  brdcast_shape (leaves_of args axs extra eaxs) = Some brd -> sh (o_fwd f (mg _ (xs_of args) extra)) = brd ++ C ->
  jhj_trace f complex_to_real fl (Some cu) extra axs eaxs mg threshold args = Some r ->
  (r = nd0 /\ any_weak args = true /\ ((exists p, inb p (brd ++ C)) -> forall a i q, (a < length args)%nat -> (i < n)%nat -> inb q (sh (lx (nth a args la0))) -> jent (ljac (nth a args la0)) i q = 0)) \/
  exists args1, (args1 = args \/ args_dense args = Some args1) /\ sh r = brd ++ C /\
  forall b, inb b brd -> exists args' es idx' r0, sliced n args1 axs b args' /\ mslices eaxs extra b es /\ cu args' es mg idx' = Some r0 /\
    forall c, inb c C -> at_ r (b ++ c) = at_ r0 c.
Proof. intros. eapply custom_verbatim; eauto. Qed.
Print Assumptions C42_added_on_top. Print Assumptions C42_rule_verbatim.
(* a rule that returns 100 + the first materialised Jacobian entry, for an elementwise function of a sparse array *)
Definition cu42 : custom_rule Z := fun args es mg idx => match args with
  | [a] => match construct_jac_for (ljac a) idx with Some d => Some (Nd [] (fun _ => (100 + at_ d [0%nat])%Z)) | None => None end | _ => None end.
Definition ex42 : lapl Z := sp [2]%nat [3; 4]%Z 1 [0; 1]%Z [20; 30]%Z [5; 6]%Z.
Example C42_hypotheses_met : setup 2 (op_unary (fun x => x) (fun _ => 1) (fun _ => 0)) (merge_of [true]) [ex42] [[]] [] [] /\
  brdcast_shape (leaves_of [ex42] [[]] [] []) = Some [2]%nat /\
  match wrap_fl (Rule (Fn (op_unary (fun x => x) (fun _ => 1) (fun _ => 0)) None None) 0%Z (Some []) (Some cu42) true) false 2 [AL ex42] with Some v => showa v | None => showa (AX nd0) end =
    ([2]%nat, [3; 4]%Z, Some [0; 1]%Z, [20; 30]%Z, [5 + (100 + 20); 6 + (100 + 30)]%Z).
Proof.
  split; [|split; vmr]. refine (@setup_ew _ _ 2 _ _ _ [true] [ex42] [] _ _ _ _ _ _); try reflexivity; try lia; try discriminate. apply forall_awf. reflexivity.
Qed.
