(* Wrap.v : model of folx/wrapper.py (wrap_forward_laplacian and the two derivative-free wrappers) and of the splitting of arguments. *)
From Verif Require Export HessForms.
Set Implicit Arguments.

Section Wrap.
Context {A : Type} {RA : CRing A}.
Add Ring Aring_Wrap : (@rth A RA).
Open Scope cr_scope.

(* api.py:320 ArrayOrFwdLaplArray: a value that carries derivatives, or a plain array *)
Inductive arg := AL (a : lapl A) | AX (x : nd A).
(* Python: isinstance(v, FwdLaplArray), api.py:311-312 *)
Definition is_al (v : arg) : bool := match v with AL _ => true | AX _ => false end.
(* the value of an argument: v.x for a FwdLaplArray (api.py:241-250), v otherwise *)
Definition aval (v : arg) : nd A := match v with AL a => lx a | AX x => x end.
(* utils.py:284-288 split_args: the derivative-carrying leaves, the other leaves, and the mask the merge function uses *)
Definition als (args : list arg) : list (lapl A) := flat_map (fun v => match v with AL a => [a] | AX _ => [] end) args.
(* utils.py:287 extra_args *)
Definition exs (args : list arg) : list (nd A) := flat_map (fun v => match v with AL _ => [] | AX x => [x] end) args.
(* utils.py:284 mask *)
Definition mask_of (args : list arg) : list bool := map is_al args.

(* A registered function: the primitive with kwargs['axes'] and its index map, the flags, in_axes, the custom Hessian rule, and whether the
   result dtype is floating or complex (api.py:283-293 astype drops the derivatives otherwise; wrapper.py:126-136) *)
Record rule := Rule { r_fn : fn A; r_fl : flags; r_axes : option (list Z); r_custom : option (custom_rule A); r_float : bool }.
(* wrapper.py:73-138 wrap_forward_laplacian (new_fn, l.93-136).  Result pytrees with one array (slogdet: Slog.v).  tree_add (tree_utils.py:25-29)
   is broadcasting addition.  In the code the canonical axes are computed by split_args (utils.py:264-297) for every leaf. *)
Definition wrap_fl (R : rule) (complex_to_real : bool) (threshold : Z) (args : list arg) : option arg :=
  let la := als args in let ex := exs args in let mg := merge_of (mask_of args) in
  let* axs := sequence (map (fun a => canon_axes (ndim (lx a)) (r_axes R)) la) in
  let* eaxs := sequence (map (fun x => canon_axes (ndim x) (r_axes R)) ex) in
  match la with
  | [] => Some (AX (o_fwd (f_op (r_fn R)) (mg _ [] ex)))                                        (* l.114-115 *)
  | _ =>
    let* t := jvp_fn (r_fn R) mg ex threshold (r_fl R) (r_axes R) la in                         (* l.119 *)
    let '(y, g, l) := t in
    let* h := jhj_trace (f_op (r_fn R)) complex_to_real (r_fl R) (r_custom R) ex axs eaxs mg threshold la in
    let* l2 := bin radd l h in                                                                  (* l.120-122 *)
    Some (if r_float R then AL (Lapl y g l2) else AX y)                                         (* l.126-132 *)
  end.
(* wrapper.py:141-154 warp_without_fwd_laplacian *)
Definition without_fl (f : list (nd A) -> nd A) (args : list arg) : option arg := Some (AX (f (map aval args))).
(* ---- specification ---- *)
(* a plain array is a value all of whose derivatives are zero *)
Definition zero_jac (s : shape) : jac A := Jac (Nd (0%nat :: s) (fun _ => 0)) None.
(* specification: an argument with derivatives, all zero for a plain array *)
Definition lift (v : arg) : lapl A := match v with AL a => a | AX x => Lapl x (zero_jac (sh x)) (Nd (sh x) (fun _ => 0)) end.
(* specification: derivative of element p in direction i *)
Definition vjac (v : arg) (i : nat) (p : ix) : A := jent (ljac (lift v)) i p.
(* specification: the Laplacian component of element p *)
Definition vlap (v : arg) (p : ix) : A := at_ (llap (lift v)) p.
(* r is the value of f at the arguments, with Jacobian and Laplacian given by the first- and second-order chain rule over ALL arguments *)
Definition arg_ok (n : nat) (f : op A) (args : list arg) (r : lapl A) : Prop :=
  let so := sh (o_fwd f (map aval args)) in let la := map lift args in
  lx r = o_fwd f (map aval args) /\ awf n r /\
  (forall i p, inb p so -> jent (ljac r) i p = dspec f la i p) /\
  (forall p, inb p so -> at_ (llap r) p = lspec f la p + hspec n f la p).

(* ---- splitting ---- *)
Lemma als_select args : map AL (als args) = select true (mask_of args) args.
Proof. induction args as [|[a|x] l IH]; cbn; auto. f_equal. exact IH. Qed.
Lemma exs_select args : map AX (exs args) = select false (mask_of args) args.
Proof. induction args as [|[a|x] l IH]; cbn; auto. f_equal. exact IH. Qed.
Lemma als_count args : length (als args) = count true (mask_of args).
Proof. unfold count. induction args as [|[a|x] l IH]; cbn; auto. Qed.
Lemma exs_count args : length (exs args) = count false (mask_of args).
Proof. unfold count. induction args as [|[a|x] l IH]; cbn; auto. Qed.
Lemma merge_avals args : merge_of (mask_of args) (xs_of (als args)) (exs args) = map aval args.
Proof. unfold merge_of. induction args as [|[a|x] l IH]; cbn; auto; f_equal; exact IH. Qed.
Lemma merge_args_ok args : merge_ok (merge_of (mask_of args)) (length (als args)) (length (exs args)).
Proof. rewrite als_count, exs_count. apply merge_of_ok. Qed.
Lemma merge_lifts args : merge_of (mask_of args) (als args) (map (fun x => lift (AX x)) (exs args)) = map lift args.
Proof. unfold merge_of. induction args as [|[a|x] l IH]; cbn; auto; f_equal; exact IH. Qed.
Lemma lift_x v : lx (lift v) = aval v.
Proof. destruct v; reflexivity. Qed.
Lemma xs_lift args : xs_of (map lift args) = map aval args.
Proof. unfold xs_of. rewrite map_map. apply map_ext. apply lift_x. Qed.
Lemma In_als a args : In a (als args) <-> In (AL a) args.
Proof.
  unfold als. rewrite in_flat_map. split.
  - intros ([b|x] & H1 & H2); cbn in H2; [destruct H2 as [->|[]]; auto|destruct H2].
  - intros H. exists (AL a). cbn. auto.
Qed.
Lemma zero_jent s i p : jent (zero_jac s) i p = 0.
Proof. unfold jent, zero_jac. cbn. destruct (Nat.ltb_spec i 0); [lia|reflexivity]. Qed.

(* sums over the derivative-carrying arguments are sums over all arguments *)
Lemma sum_merge mg n ne (G H : nat -> A) : merge_ok mg n ne -> (forall a, (a < n)%nat -> G a = H (posof mg n ne a)) ->
  (forall j, (j < n + ne)%nat -> (forall a, (a < n)%nat -> posof mg n ne a <> j) -> H j = 0) -> sumn n G = sumn (n + ne) H.
Proof.
  intros Hm HG HZ. rewrite <- (@rowsum _ _ (n + ne) n (fun a => Some (posof mg n ne a)) H).
  - apply sumn_ext. intros a Ha. apply HG. exact Ha.
  - intros a i Ha E. injection E as <-. destruct (@merge_posof mg n ne nat 0%nat (repeat 0%nat n) (repeat 0%nat ne) a Hm) as [P _]; rewrite ?repeat_length; auto.
  - intros a b i Ha Hb E1 E2. injection E1 as E1. injection E2 as E2. apply (@posof_inj mg n ne a b Hm); auto. congruence.
  - intros i Hi Hno. apply HZ; auto. intros a Ha E. apply (Hno a Ha). rewrite E. reflexivity.
Qed.
Lemma len_split_g args : (length (als args) + length (exs args))%nat = length args.
Proof. unfold als, exs in *. induction args as [|[a|x] l IH]; cbn in *; lia. Qed.
Section S.
Context (args : list arg) (f : op A).
Let la := als args. Let ex := exs args. Let mg := merge_of (mask_of args).
Let fm := merged f mg (length la) ex.
Let P a := posof mg (length la) (length ex) a.
Lemma len_split : (length la + length ex)%nat = length args.
Proof. apply len_split_g. Qed.
Lemma at_pos a : (a < length la)%nat -> nth (P a) (map lift args) la0 = nth a la la0 /\ (P a < length args)%nat.
Proof.
  intros Ha. rewrite <- merge_lifts. destruct (@merge_posof mg (length la) (length ex) _ la0 la (map (fun x => lift (AX x)) ex) a (merge_args_ok args)) as [P1 P2]; rewrite ?map_length; auto.
  split; [exact P2|]. rewrite <- len_split. exact P1.
Qed.
Lemma at_other j : (j < length args)%nat -> (forall a, (a < length la)%nat -> P a <> j) -> exists x, nth j (map lift args) la0 = lift (AX x).
Proof.
  intros Hj Hno. destruct (@merge_place mg (length la) (length ex) j (merge_args_ok args)) as [(a & Ha & E)|(e & He & _ & _ & H)].
  - rewrite len_split. exact Hj.
  - exfalso. apply (Hno a Ha E).
  - exists (nth e ex nd0). rewrite <- merge_lifts. rewrite (H _ la0 la (map (fun x => lift (AX x)) ex)); rewrite ?map_length; auto. fold ex. rewrite nth_map_in with (dx := nd0) by auto. reflexivity.
Qed.
Lemma xs_at (l : list (lapl A)) k : (k < length l)%nat -> nth k (xs_of l) nd0 = lx (nth k l la0).
Proof. intros H. unfold xs_of. rewrite nth_map_in with (dx := la0) by auto. reflexivity. Qed.
Lemma merged_fwd : o_fwd fm (xs_of la) = o_fwd f (map aval args).
Proof. cbn [fm merged o_fwd]. unfold mg, la, ex. rewrite merge_avals. reflexivity. Qed.
Lemma chain_all p (v : lapl A -> ix -> A) : (forall x q, v (lift (AX x)) q = 0) ->
  chain1 fm (xs_of la) p (fun a q => v (nth a la la0) q) = chain1 f (map aval args) p (fun a q => v (nth a (map lift args) la0) q).
Proof.
  intros Hv. unfold chain1. rewrite xs_length, map_length. rewrite <- len_split. fold la. apply (@sum_merge mg).
  - apply merge_args_ok.
  - intros a Ha. destruct (at_pos Ha) as [E HP]. fold (P a). rewrite E. rewrite <- (xs_lift args), !xs_at by (rewrite ?map_length; auto). rewrite E.
    apply sumL_ext. intros q _. cbn [fm merged o_d]. fold (P a). unfold mg, la, ex. rewrite merge_avals. rewrite xs_lift. reflexivity.
  - intros j Hj Hno. rewrite len_split in Hj. destruct (at_other Hj Hno) as (x & E). rewrite E. apply sumL_zero. intros q _. rewrite Hv. ring.
Qed.
Lemma quad_all p (v : lapl A -> ix -> A) : (forall x q, v (lift (AX x)) q = 0) ->
  quad fm (xs_of la) p (fun a q => v (nth a la la0) q) (fun a q => v (nth a la la0) q) =
  quad f (map aval args) p (fun a q => v (nth a (map lift args) la0) q) (fun a q => v (nth a (map lift args) la0) q).
Proof.
  intros Hv. unfold quad. rewrite xs_length, map_length. rewrite <- len_split. fold la. apply (@sum_merge mg).
  - apply merge_args_ok.
  - intros a Ha. destruct (at_pos Ha) as [E HP]. fold (P a). rewrite E. rewrite <- (xs_lift args), !xs_at by (rewrite ?map_length; auto). rewrite E.
    apply sumL_ext. intros q _. rewrite xs_lift. apply (@sum_merge mg).
    + apply merge_args_ok.
    + intros b Hb. destruct (at_pos Hb) as [E' HP']. fold (P b). rewrite E'. rewrite <- (xs_lift args), !xs_at by (rewrite ?map_length; auto). rewrite E'.
      apply sumL_ext. intros r _. cbn [fm merged o_h]. fold (P a) (P b). unfold mg, la, ex. rewrite merge_avals. rewrite xs_lift. reflexivity.
    + intros j Hj Hno. rewrite len_split in Hj. destruct (at_other Hj Hno) as (x & E'). rewrite E'. apply sumL_zero. intros r _. rewrite Hv. ring.
  - intros j Hj Hno. rewrite len_split in Hj. destruct (at_other Hj Hno) as (x & E). rewrite E. apply sumL_zero. intros q _. apply sumn_zero. intros b _. apply sumL_zero. intros r _. rewrite Hv. ring.
Qed.
Lemma dspec_all i p : dspec fm la i p = dspec f (map lift args) i p.
Proof. unfold dspec. rewrite xs_lift. apply (@chain_all p (fun a q => jent (ljac a) i q)). intros x q. apply zero_jent. Qed.
Lemma lspec_all p : lspec fm la p = lspec f (map lift args) p.
Proof. unfold lspec. rewrite xs_lift. apply (@chain_all p (fun a q => at_ (llap a) q)). intros x q. reflexivity. Qed.
Lemma hspec_all n p : hspec n fm la p = hspec n f (map lift args) p.
Proof. unfold hspec. apply sumn_ext. intros i Hi. rewrite xs_lift. apply (@quad_all p (fun a q => jent (ljac a) i q)). intros x q. apply zero_jent. Qed.
End S.

(* ---- soundness of the wrapper, given the two parts ---- *)
Lemma bin_bto (l h : nd A) s : sh l = s -> bto (sh h) s -> exists t, bin radd l h = Some t /\ sh t = s /\ forall p, inb p s -> at_ t p = at_ l p + at_ h (bproj (sh h) p).
Proof.
  intros Hl Hh. unfold bin. assert (E : bshape2 s (sh h) = Some s) by (apply bshape2_bto_r; exact Hh). rewrite Hl, E. cbn [bind]. eexists. split; [reflexivity|]. split; [reflexivity|].
  intros p Hp. cbn [at_]. rewrite bproj_same by auto. reflexivity.
Qed.
Theorem wrap_sound n R c2r th args axs eaxs r : als args <> [] ->
  sequence (map (fun a => canon_axes (ndim (lx a)) (r_axes R)) (als args)) = Some axs ->
  sequence (map (fun x => canon_axes (ndim x) (r_axes R)) (exs args)) = Some eaxs ->
  let f := f_op (r_fn R) in let mg := merge_of (mask_of args) in let fm := merged f mg (length (als args)) (exs args) in
  (forall t, jvp_fn (r_fn R) mg (exs args) th (r_fl R) (r_axes R) (als args) = Some t -> step_ok n fm (als args) t /\ jrow1 (snd (fst t))) ->
  (forall h, jhj_trace f c2r (r_fl R) (r_custom R) (exs args) axs eaxs mg th (als args) = Some h -> jhj_ok n fm (als args) h) ->
  wrap_fl R c2r th args = Some r ->
  if r_float R then exists a, r = AL a /\ arg_ok n f args a /\ jrow1 (ljac a) else r = AX (o_fwd f (map aval args)).
Proof.
  intros Hne Ea Ee f mg fm H1 H2 H. unfold wrap_fl in H. rewrite Ea, Ee in H. cbn [bind] in H. fold mg in H.
  assert (HX : forall (X : Type) (u v : X), match als args with [] => u | _ :: _ => v end = v) by (intros; destruct (als args); congruence). rewrite HX in H. clear HX.
  destruct (jvp_fn _ _ _ _ _ _ _) as [[[y g] l]|] eqn:E1; [|discriminate]. cbn [bind] in H. destruct (H1 _ eq_refl) as [S1 S2]. clear H1.
  destruct (jhj_trace _ _ _ _ _ _ _ _ _ _) as [h|] eqn:E2; [|discriminate]. cbn [bind] in H. specialize (H2 _ eq_refl). destruct H2 as [B1 B2].
  destruct S1 as (Sy & Sg & Sl & SJ & SL). unfold fm, mg, f in *. rewrite !merged_fwd in *.
  destruct (@bin_bto l h _ Sl B1) as (t & Et & St & At). rewrite Et in H. cbn [bind] in H. apply (f_equal (fun o => match o with Some t => t | None => AX nd0 end)) in H. cbv beta iota in H.
  destruct (r_float R).
  - eexists. split; [symmetry; exact H|]. split; [|exact S2]. split; [exact Sy|]. cbn [lx ljac llap]. split; [|split].
    + split; cbn [lx ljac llap]; rewrite Sy; auto.
    + intros i p Hp. rewrite SJ by auto. apply dspec_all.
    + intros p Hp. rewrite At, SL, B2 by auto. rewrite lspec_all, hspec_all. reflexivity.
  - rewrite <- H, Sy. reflexivity.
Qed.
(* functions of plain arrays *)
Theorem wrap_plain R c2r th args r : als args = [] -> wrap_fl R c2r th args = Some r -> r = AX (o_fwd (f_op (r_fn R)) (map aval args)).
Proof.
  intros E H. unfold wrap_fl in H. rewrite E in H. cbn [map sequence bind] in H. destruct (sequence _); [|discriminate]. cbn [bind] in H.
  rewrite <- merge_avals, E. injection H as <-. reflexivity.
Qed.
End Wrap.
Arguments arg A : clear implicits.
Arguments rule A : clear implicits.
