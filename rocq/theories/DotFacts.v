(* DotFacts.v : the index arithmetic of dot_general: rearranging, broadcasting and contracting enumerates the textbook sum. *)
From Verif Require Export DotGen.
Set Implicit Arguments.

Lemma bsr_app s t r s' t' : length s = length t -> bsr s t = Some r -> bsr (s ++ s') (t ++ t') = option_map (app r) (bsr s' t').
Proof.
  revert t r. induction s as [|x s IH]; intros [|y t] r HL H; cbn in HL; try lia.
  - cbn in H. injection H as <-. cbn. destruct (bsr s' t'); reflexivity.
  - cbn in H |- *. destruct (bsr s t) as [w|] eqn:E; [|discriminate]. rewrite (IH t w ltac:(lia) E). destruct (bsr s' t') as [w'|]; cbn; [|reflexivity].
    destruct (Nat.eqb x y); [injection H as <-; reflexivity|]. destruct (Nat.eqb x 1); [injection H as <-; reflexivity|]. destruct (Nat.eqb y 1); [injection H as <-; reflexivity|discriminate].
Qed.
Lemma bshape2_app s t r s' t' r' : length s' = length t' -> bshape2 s t = Some r -> bshape2 s' t' = Some r' -> bshape2 (s ++ s') (t ++ t') = Some (r ++ r').
Proof.
  unfold bshape2. intros HL H H'. destruct (bsr (rev s') (rev t')) as [w'|] eqn:E'; [|discriminate]. destruct (bsr (rev s) (rev t)) as [w|] eqn:E; [|discriminate]. cbn in H, H'. injection H as <-. injection H' as <-.
  rewrite !rev_app_distr. rewrite (@bsr_app (rev s') (rev t') w' (rev s) (rev t)); [|rewrite !rev_length; auto|exact E']. rewrite E. cbn. rewrite rev_app_distr. reflexivity.
Qed.
Lemma bshape2_self s : bshape2 s s = Some s.
Proof. unfold bshape2. rewrite bsr_self. cbn. rewrite rev_involutive. reflexivity. Qed.
Lemma rev_repeat {X} (x : X) n : rev (repeat x n) = repeat x n.
Proof. induction n as [|n IH]; cbn; [reflexivity|]. rewrite IH. clear IH. induction n as [|n IH]; cbn; [reflexivity|]. rewrite IH. reflexivity. Qed.
Lemma bsr_ones s : bsr (repeat 1 (length s)) s = Some s /\ bsr s (repeat 1 (length s)) = Some s.
Proof.
  induction s as [|x s [H1 H2]]; cbn; [auto|]. rewrite H1, H2. split.
  - destruct x as [|[|x]]; reflexivity.
  - destruct (Nat.eqb_spec x 1); [subst; reflexivity|]. reflexivity.
Qed.
Lemma bshape2_ones s : bshape2 (repeat 1 (length s)) s = Some s /\ bshape2 s (repeat 1 (length s)) = Some s.
Proof.
  unfold bshape2. rewrite rev_repeat, <- rev_length. destruct (bsr_ones (rev s)) as [H1 H2]. rewrite H1, H2. cbn. rewrite rev_involutive. auto.
Qed.
(* an axis of full size is not changed by broadcasting *)
Lemma bproj_keep s so p j : inb p so -> length s = length so -> j < length s -> nth j s 0 = nth j so 0 -> nth j (bproj s p) 0 = nth j p 0.
Proof.
  intros Hp HL Hj E. pose proof (inb_length Hp) as L. rewrite bproj_nth by lia. replace (length p - length s + j) with j by lia.
  destruct (Nat.eqb_spec (nth j s 0) 1) as [E1|]; auto. pose proof (inb_nth Hp (d := j) ltac:(lia)). rewrite <- E, E1 in H. lia.
Qed.
Lemma permute_lt l s t : (forall d, In d l -> d < length s) -> permute l (s ++ t) = permute l s.
Proof. intros H. unfold permute. apply map_ext_in. intros d Hd. apply app_nth1. auto. Qed.
Lemma permute_new s k : permute (seq (length s) k) (s ++ repeat 1 k) = repeat 1 k.
Proof.
  unfold permute. revert s. induction k as [|k IH]; intros s; cbn; [reflexivity|]. rewrite app_nth2, Nat.sub_diag by lia. cbn. f_equal.
  specialize (IH (s ++ [1])). rewrite app_length, Nat.add_1_r, <- app_assoc in IH. exact IH.
Qed.
Lemma free_In n b c d : In d (free_dims n b c) <-> d < n /\ ~ In d b /\ ~ In d c.
Proof. unfold free_dims. rewrite keep_pos_In, in_app_iff. tauto. Qed.
Lemma In_seq_new (s : shape) k d : In d (seq (length s) k) -> d < length s -> False.
Proof. intros H. apply in_seq in H. lia. Qed.

Section Side.
Context (s : shape) (c b : list nat) (other : nat) (rhs : bool).
Context (Hnd : NoDup (b ++ c)) (Hlt : forall d, In d (b ++ c) -> d < length s).
Let f := free_dims (length s) b c.
Let g := rearr s c b f other rhs.
Definition side_shape (X : shape) : shape := permute b s ++ (if rhs then X ++ permute f s else permute f s ++ X).
Lemma b_lt d : In d b -> d < length s. Proof. intros H. apply Hlt. apply in_or_app. auto. Qed.
Lemma c_lt d : In d c -> d < length s. Proof. intros H. apply Hlt. apply in_or_app. auto. Qed.
Lemma f_lt d : In d f -> d < length s. Proof. intros H. apply free_In in H. tauto. Qed.
Lemma bc_disj d : In d b -> In d c -> False.
Proof. clear -Hnd. induction b as [|x b' IH]; cbn in *; [tauto|]. inversion Hnd; subst. intros [->|H] H'; [apply H1; apply in_or_app; auto|auto]. Qed.
Lemma side_length X : length (side_shape X) = length b + length X + length f.
Proof. unfold side_shape. rewrite app_length, permute_length. destruct rhs; rewrite app_length, permute_length; lia. Qed.
Lemma rearr_shape : i_shape g = side_shape (repeat 1 other) ++ [prod (permute c s)].
Proof.
  unfold g, rearr, side_shape. cbn [i_shape]. f_equal. rewrite permute_app. rewrite permute_lt by apply b_lt. f_equal.
  destruct rhs; rewrite permute_app, permute_new, permute_lt by apply f_lt; reflexivity.
Qed.
(* where an axis of the operand ends up *)
Definition place (d : nat) : nat :=
  if mem d b then pos d b else if mem d c then length b + other + length f + pos d c else length b + (if rhs then other else 0) + pos d f.
Lemma pos_perm d : d < length s -> pos d (rearr_perm s c b f other rhs) = place d.
Proof.
  intros Hd. unfold rearr_perm, place. destruct (mem d b) eqn:Eb.
  - apply mem_In in Eb. apply pos_app_l. exact Eb.
  - apply mem_nIn in Eb. rewrite pos_app_r by exact Eb. destruct (mem d c) eqn:Ec.
    + apply mem_In in Ec. assert (Hf : ~ In d f) by (intros H; apply free_In in H; tauto). assert (Hs : ~ In d (seq (length s) other)) by (intros H; apply (In_seq_new _ _ H Hd)).
      rewrite pos_app_r; [|destruct rhs; rewrite in_app_iff; tauto]. destruct rhs; rewrite app_length, seq_length; lia.
    + apply mem_nIn in Ec. assert (Hf : In d f) by (apply free_In; auto). assert (Hs : ~ In d (seq (length s) other)) by (intros H; apply (In_seq_new _ _ H Hd)).
      rewrite pos_app_l; [|destruct rhs; rewrite in_app_iff; tauto]. destruct rhs.
      * rewrite pos_app_r by exact Hs. rewrite seq_length. lia.
      * rewrite pos_app_l by exact Hf. lia.
Qed.
(* the index of the operand that meets output index p and contraction index cc *)
Definition side_ix (p cc : ix) : ix :=
  map (fun d => if mem d b then nth (pos d b) p 0 else if mem d c then nth (pos d c) cc 0 else nth (length b + (if rhs then other else 0) + pos d f) p 0) (seq 0 (length s)).
Lemma side_nth X d : d < length s -> length X = other -> mem d c = false ->
  let j := if mem d b then pos d b else length b + (if rhs then other else 0) + pos d f in j < length (side_shape X) /\ nth j (side_shape X) 0 = nth d s 0.
Proof.
  intros Hd HX Ec. apply mem_nIn in Ec. cbv zeta. rewrite side_length. unfold side_shape. destruct (mem d b) eqn:Eb.
  - apply mem_In in Eb. pose proof (pos_lt _ _ Eb). split; [lia|]. rewrite app_nth1 by (rewrite permute_length; lia). unfold permute. rewrite nth_map_in with (dx := 0) by auto. rewrite nth_pos by auto. reflexivity.
  - apply mem_nIn in Eb. assert (Hf : In d f) by (apply free_In; auto). pose proof (pos_lt _ _ Hf). split; [destruct rhs; lia|].
    rewrite app_nth2 by (rewrite permute_length; destruct rhs; lia). rewrite permute_length. destruct rhs.
    + rewrite app_nth2 by lia. replace (length b + other + pos d f - length b - length X) with (pos d f) by lia. unfold permute. rewrite nth_map_in with (dx := 0) by auto. rewrite nth_pos by auto. reflexivity.
    + rewrite app_nth1 by (rewrite permute_length; lia). replace (length b + 0 + pos d f - length b) with (pos d f) by lia. unfold permute. rewrite nth_map_in with (dx := 0) by auto. rewrite nth_pos by auto. reflexivity.
Qed.
Lemma side_inb X p cc : length X = other -> inb p (side_shape X) -> inb cc (permute c s) -> inb (side_ix p cc) s.
Proof.
  intros HX Hp Hc. apply inb_of_nth; [unfold side_ix; rewrite map_length, seq_length; reflexivity|]. intros d Hd.
  unfold side_ix. rewrite nth_map_in with (dx := 0) by (rewrite seq_length; exact Hd). rewrite seq_nth by exact Hd. cbn [Nat.add].
  destruct (mem d c) eqn:Ec.
  - assert (Eb : mem d b = false). { apply mem_nIn. intros H. apply mem_In in Ec. exact (@bc_disj d H Ec). } rewrite Eb. apply mem_In in Ec. pose proof (pos_lt _ _ Ec) as L.
    pose proof (inb_nth Hc (d := pos d c)) as G. rewrite permute_length in G. specialize (G L). unfold permute in G. rewrite nth_map_in with (dx := 0) in G by auto. rewrite nth_pos in G by auto. exact G.
  - destruct (@side_nth X d Hd HX Ec) as [J1 J2]. destruct (mem d b); rewrite <- J2; apply inb_nth; auto.
Qed.
Lemma rearr_src p k : k < prod (permute c s) -> length p = length b + other + length f -> i_src g (p ++ [k]) = (0, side_ix p (unravel_ix (permute c s) k)).
Proof.
  intros Hk Hp. unfold g, rearr. cbn [i_src]. f_equal. rewrite removelast_snoc, last_last. unfold side_ix. apply map_ext_in. intros d Hd. apply in_seq in Hd. rewrite pos_perm by lia. unfold place.
  destruct (mem d b) eqn:Eb.
  - apply mem_In in Eb. pose proof (pos_lt _ _ Eb). apply app_nth1. lia.
  - destruct (mem d c) eqn:Ec.
    + rewrite app_nth2 by lia. f_equal. lia.
    + apply mem_nIn in Eb, Ec. assert (Hf : In d f) by (apply free_In; repeat split; auto; lia). pose proof (pos_lt _ _ Hf). apply app_nth1. destruct rhs; lia.
Qed.
Lemma rearr_wf : iop_wf g [s].
Proof.
  intros p Hp. rewrite rearr_shape in Hp. destruct (@snoc_inb _ _ _ Hp) as (q & k & -> & Hq & Hk). pose proof (inb_length Hq) as L. rewrite side_length, repeat_length in L.
  rewrite rearr_src by (auto; lia). cbn [fst snd length nth]. split; [lia|]. apply (@side_inb (repeat 1 other)); auto using repeat_length. apply unravel_inb. exact Hk.
Qed.
(* broadcasting over the new axes does not change the element read *)
Lemma side_bproj X p cc : length X = other -> inb p (side_shape X) -> side_ix (bproj (side_shape (repeat 1 other)) p) cc = side_ix p cc.
Proof.
  intros HX Hp. unfold side_ix. apply map_ext_in. intros d Hd. apply in_seq in Hd. assert (Hd' : d < length s) by lia.
  destruct (mem d c) eqn:Ec.
  - assert (Eb : mem d b = false). { apply mem_nIn. intros H. apply mem_In in Ec. exact (@bc_disj d H Ec). } rewrite Eb. reflexivity.
  - destruct (@side_nth X d Hd' HX Ec) as [J1 J2]. destruct (@side_nth (repeat 1 other) d Hd' (repeat_length _ _) Ec) as [J3 J4].
    destruct (mem d b); (apply (@bproj_keep _ (side_shape X)); [exact Hp|rewrite !side_length, repeat_length; lia|exact J3|congruence]).
Qed.
End Side.

(* ---- the shapes of the rearranged operands ---- *)
Section Shapes.
Context (D : dims) (sl sr : shape) (HD : dims_ok D sl sr).
Let B := permute (lb D) sl.
Let L := permute (lf D sl) sl.
Let R := permute (rf D sr) sr.
Definition lpre : shape := permute (lb D) sl ++ permute (lf D sl) sl ++ repeat 1 (length (rf D sr)).
Definition rpre : shape := permute (rb D) sr ++ repeat 1 (length (lf D sl)) ++ permute (rf D sr) sr.
Lemma lpre_side : lpre = side_shape sl (lc D) (lb D) false (repeat 1 (length (rf D sr))). Proof. reflexivity. Qed.
Lemma rpre_side : rpre = side_shape sr (rc D) (rb D) true (repeat 1 (length (lf D sl))). Proof. reflexivity. Qed.
Lemma lshape_side : dot_shape D sl sr = side_shape sl (lc D) (lb D) false (permute (rf D sr) sr). Proof. reflexivity. Qed.
Lemma rshape_side : dot_shape D sl sr = side_shape sr (rc D) (rb D) true (permute (lf D sl) sl).
Proof. unfold dot_shape, side_shape. destruct HD as (_ & _ & _ & _ & _ & _ & E & _). rewrite E. reflexivity. Qed.
Lemma pre_len : length lpre = length rpre.
Proof. unfold lpre, rpre. rewrite !app_length, !permute_length, !repeat_length. destruct HD as (_ & _ & _ & _ & E & _). lia. Qed.
Lemma pre_b : bshape2 lpre rpre = Some (dot_shape D sl sr).
Proof.
  unfold lpre, rpre, dot_shape. destruct HD as (_ & _ & _ & _ & _ & _ & E & _). rewrite <- E.
  assert (EL : length (lf D sl) = length (permute (lf D sl) sl)) by (rewrite permute_length; reflexivity).
  assert (ER : length (rf D sr) = length (permute (rf D sr) sr)) by (rewrite permute_length; reflexivity).
  apply bshape2_app; [rewrite !app_length, !repeat_length, !permute_length; lia|apply bshape2_self|].
  apply bshape2_app; [rewrite repeat_length; exact ER|rewrite EL; apply bshape2_ones|rewrite ER; apply bshape2_ones].
Qed.
Lemma lix_side p c : lix D sl p c = side_ix sl (lc D) (lb D) (length (rf D sr)) false p c.
Proof. unfold lix, side_ix. apply map_ext. intros d. fold (lf D sl). rewrite Nat.add_0_r. reflexivity. Qed.
Lemma rix_side p c : rix D sl sr p c = side_ix sr (rc D) (rb D) (length (lf D sl)) true p c.
Proof. reflexivity. Qed.
End Shapes.

(* The tests of wrapped_functions.py:139-150 in terms of the shapes, and the cases in which skipping the transpositions is right:
   no free axis on the right and not both batch and free axes on the left, or a scalar on the left. *)
Definition fast_taken (D : dims) (sl sr : shape) : bool :=
  let K := prod (permute (lc D) sl) in
  Nat.eqb (prod (dot_shape D sl sr) * K) (Nat.max (prod (permute (lb D) sl ++ permute (lf D sl) sl) * K) (prod (permute (rb D) sr ++ permute (rf D sr) sr) * K)) && special D sl sr.
Definition fast_right (D : dims) (sl sr : shape) : Prop :=
  (rf D sr = [] /\ (lb D = [] \/ lf D sl = [])) \/ sl = [].

Lemma prod_ones n : prod (repeat 1 n) = 1.
Proof. induction n as [|n IH]; cbn; [reflexivity|]. rewrite IH. reflexivity. Qed.

Section Sound.
Context {A : Type} {RA : CRing A}.
Add Ring Aring_DF : (@rth A RA).
Open Scope cr_scope.
Notation aval := (@aval A).

Lemma weave_snoc p k : weave (S (length p)) [length p] p [k] = p ++ [k].
Proof.
  unfold weave. change (keep_pos (S (length p)) [length p]) with (keepax (S (length p)) [length p]). rewrite keepax_last. rewrite seq_S, map_app. cbn [map Nat.add]. f_equal.
  - transitivity (map (fun d => nth d p 0%nat) (seq 0 (length p))); [|apply (permute_id p)]. apply map_ext_in. intros d Hd. apply in_seq in Hd. cbn [existsb].
    destruct (Nat.eqb_spec d (length p)); [lia|]. cbn [orb]. assert (Hd' : In d (seq 0 (length p))) by (apply in_seq; lia). f_equal.
    pose proof (@pos_nth (seq 0 (length p)) d 0%nat (seq_NoDup _ _)) as G. rewrite seq_length, seq_nth in G by lia. apply G. lia.
  - cbn [existsb]. rewrite Nat.eqb_refl. cbn. rewrite Nat.eqb_refl. reflexivity.
Qed.
Lemma bproj_snoc s p K k : (length s <= length p)%nat -> (k < K)%nat -> bproj (s ++ [K]) (p ++ [k]) = bproj s p ++ [k].
Proof.
  intros HL Hk. apply nth_ext with (d := 0%nat) (d' := 0%nat); [rewrite app_length, !bproj_length; rewrite ?app_length; cbn; lia|]. intros j Hj.
  rewrite bproj_length, app_length in Hj by (rewrite !app_length; cbn; lia). cbn in Hj.
  rewrite bproj_nth by (rewrite !app_length; cbn; lia). destruct (Nat.eq_dec j (length s)) as [->|Hne].
  - rewrite nth_middle. rewrite !app_length. cbn [length]. rewrite (app_nth2 (bproj s p)) by (rewrite bproj_length; lia). rewrite bproj_length by lia. rewrite Nat.sub_diag. cbn [nth].
    rewrite app_nth2 by lia. replace (length p + 1 - (length s + 1) + length s - length p)%nat with 0%nat by lia. cbn [nth]. destruct (Nat.eqb_spec K 1); [lia|reflexivity].
  - rewrite (app_nth1 s) by lia. rewrite (app_nth1 (bproj s p)) by (rewrite bproj_length; lia). rewrite bproj_nth by lia. rewrite !app_length. cbn [length]. rewrite (app_nth1 p) by lia.
    replace (length p + 1 - (length s + 1) + j)%nat with (length p - length s + j)%nat by lia. reflexivity.
Qed.

Theorem general_path n c2r th D u v u' v' r : (0 < n)%nat -> als [u; v] <> [] -> vok n u -> vok n v -> let sl := sh (aval u) in let sr := sh (aval v) in dims_ok D sl sr ->
  wrap_fl (index_rule (rearr sl (lc D) (lb D) (lf D sl) (length (rf D sr)) false) true true) c2r th [u] = Some u' ->
  wrap_fl (index_rule (rearr sr (rc D) (rb D) (rf D sr) (length (lf D sl)) true) true true) c2r th [v] = Some v' ->
  sh (aval u') = lpre D sl sr ++ [prod (permute (lc D) sl)] /\ sh (aval v') = rpre D sl sr ++ [prod (permute (lc D) sl)] /\
  (wrap_fl dotlast_rule c2r th [u'; v'] = Some r \/ mul_sum c2r th (fun rank => [(rank - 1)%nat]) u' v' = Some r ->
   exists a, r = AL a /\ bilin n u v (dot_shape D sl sr) (fun p => map (fun c => (lix D sl p c, rix D sl sr p c)) (allix (permute (lc D) sl))) a).
Proof.
  intros Hn Hne Hu Hv sl sr HD EU EV. pose proof HD as (N1 & N2 & N3 & N4 & N5 & N6 & N7 & N8).
  set (K := prod (permute (lc D) sl)). assert (EK : prod (permute (rc D) sr) = K) by (unfold K; rewrite N8; reflexivity).
  pose proof (@index_follows _ _ n _ true true c2r th u u' Hn Hu (@rearr_wf sl (lc D) (lb D) (length (rf D sr)) false N1 N2) EU) as FU.
  pose proof (@index_follows _ _ n _ true true c2r th v v' Hn Hv (@rearr_wf sr (rc D) (rb D) (length (lf D sl)) true N3 N4) EV) as FV.
  unfold lf, rf in FU, FV. rewrite (@rearr_shape sl (lc D) (lb D) _ false N2) in FU. rewrite (@rearr_shape sr (rc D) (rb D) _ true N4) in FV.
  fold (rf D sr) in FU, FV. fold (lf D sl) in FU, FV. rewrite <- (lpre_side D sl sr) in FU. rewrite <- (rpre_side D sl sr), EK in FV. fold K in FU.
  pose proof FU as (SU & VU & AU & _). pose proof FV as (SV & VV & AV & _). split; [exact SU|]. split; [exact SV|].
  pose proof (pre_len HD) as PL. pose proof (pre_b HD) as PB. pose proof (bshape2_ub _ _ PB) as [PU1 PU2].
  assert (LD : length (dot_shape D sl sr) = length (lpre D sl sr)).
  { unfold dot_shape, lpre. rewrite !app_length, !permute_length, repeat_length. reflexivity. }
  assert (Hne' : als [u'; v'] <> []).
  { destruct u, v, u', v'; cbn in AU, AV |- *; try discriminate; exfalso; apply Hne; reflexivity. }
  (* the sum over the contracted axis of the rearranged operands *)
  intros HR. set (so := dot_shape D sl sr) in *.
  assert (HF : exists a, r = AL a /\ bilin n u' v' so (fun p => map (fun k => (bproj (lpre D sl sr) p ++ [k], bproj (rpre D sl sr) p ++ [k])) (seq 0 K)) a).
  { destruct HR as [HR|HR].
    - exact (@bilin_dotlast _ _ n c2r th u' v' r (lpre D sl sr) (rpre D sl sr) K so Hn Hne' VU VV SU SV PL PB HR).
    - unfold mul_sum in HR. assert (N0 : (ndim (aval v') - ndim (aval u'))%nat = 0%nat /\ (ndim (aval u') - ndim (aval v'))%nat = 0%nat) by (unfold ndim; rewrite SU, SV, !app_length; cbn [length]; lia).
      destruct N0 as [N0 N1']. rewrite N0, N1' in HR. cbn [promote bind] in HR. destruct (wrap_fl mul_rule c2r th [u'; v']) as [m|] eqn:EM; [|discriminate]. cbn [bind] in HR.
      assert (EB : bshape2 (sh (aval u')) (sh (aval v')) = Some (so ++ [K])).
      { rewrite SU, SV. apply bshape2_app; [reflexivity|exact PB|apply bshape2_self]. }
      destruct (@bilin_mul _ _ n c2r th u' v' m (so ++ [K]) Hn Hne' VU VV EB EM) as (m' & -> & BM). cbn [Verif.Wrap.aval] in HR.
      pose proof BM as (SM & _). assert (NM : ndim (lx m') = S (length so)) by (unfold ndim; rewrite SM, app_length; cbn; lia). rewrite NM in HR. replace (S (length so) - 1)%nat with (length so) in HR by lia.
      rewrite <- SM in BM.
      destruct (@bilin_sum _ _ n c2r th u' v' m' _ [length so] r Hn ltac:(repeat constructor; intros []) ltac:(intros d [<-|[]]; rewrite NM; lia) BM HR) as (a & -> & BA).
      exists a. split; [reflexivity|]. rewrite NM, SM in BA. change (keep_pos (S (length so)) [length so]) with (keepax (S (length so)) [length so]) in BA. rewrite keepax_last, permute_seq_app, permute_last in BA.
      revert BA. apply bilin_ext. intros p Hp. pose proof (inb_length Hp) as Lp. rewrite SU, SV. cbn [allix]. rewrite flat_map_concat_map.
      assert (EI : map (fun j => [(bproj (lpre D sl sr ++ [K]) (weave (S (length so)) [length so] p j), bproj (rpre D sl sr ++ [K]) (weave (S (length so)) [length so] p j))]) (concat (map (fun x => map (cons x) [[]]) (seq 0 K))) =
                   map (fun k => [(bproj (lpre D sl sr) p ++ [k], bproj (rpre D sl sr) p ++ [k])]) (seq 0 K)).
      { transitivity (map (fun j => [(bproj (lpre D sl sr ++ [K]) (weave (S (length so)) [length so] p j), bproj (rpre D sl sr ++ [K]) (weave (S (length so)) [length so] p j))]) (map (fun x => [x]) (seq 0 K))).
        { f_equal. generalize (seq 0 K). intros l. induction l as [|x l IH]; cbn; [reflexivity|]. f_equal. exact IH. }
        rewrite map_map. apply map_ext_in. intros k Hk. apply in_seq in Hk. rewrite <- Lp, weave_snoc. rewrite !bproj_snoc by lia. reflexivity. }
      rewrite flat_map_concat_map, EI. clear. generalize (seq 0 K). intros l. induction l as [|x l IH]; cbn; [constructor|]. constructor. exact IH. }
  destruct HF as (a & -> & HB). exists a. split; [reflexivity|].
  pose proof (@bilin_follows _ _ n u v u' v' _ _ _ _ so _ a FU FV HB) as HB2. revert HB2. apply bilin_ext. intros p Hp. rewrite map_map. rewrite allix_unravel. rewrite map_map. fold K.
  apply Permutation_refl'. apply map_ext_in. intros k Hk. apply in_seq in Hk. cbn [fst snd].
  assert (LB : length p = length (lpre D sl sr)) by (rewrite (inb_length Hp); exact LD).
  assert (L1 : length (bproj (lpre D sl sr) p) = (length (lb D) + length (rf D sr) + length (lf D sl))%nat).
  { rewrite bproj_length by lia. unfold lpre. rewrite !app_length, !permute_length, repeat_length. lia. }
  assert (L2 : length (bproj (rpre D sl sr) p) = (length (rb D) + length (lf D sl) + length (rf D sr))%nat).
  { rewrite bproj_length by lia. unfold rpre. rewrite !app_length, !permute_length, repeat_length. lia. }
  f_equal.
  - rewrite (@rearr_src sl (lc D) (lb D) (length (rf D sr)) false) by (auto; fold K; lia). cbn [snd]. rewrite lpre_side.
    rewrite (@side_bproj sl (lc D) (lb D) (length (rf D sr)) false N1 (permute (rf D sr) sr)) by (auto using permute_length). symmetry. apply lix_side.
  - rewrite (@rearr_src sr (rc D) (rb D) (length (lf D sl)) true) by (auto; rewrite EK; lia). cbn [snd]. rewrite rpre_side.
    rewrite (@side_bproj sr (rc D) (rb D) (length (lf D sl)) true N3 (permute (lf D sl) sl)); [|apply permute_length|rewrite <- rshape_side by exact HD; exact Hp]. rewrite <- N8. symmetry. apply rix_side.
Qed.

Lemma promote_follows n c2r th k u u' : (0 < n)%nat -> vok n u -> promote c2r th k u = Some u' -> follows n (repeat 1%nat k ++ sh (aval u)) (fun q => skipn k q) u u'.
Proof.
  intros Hn Hu H. destruct k as [|k].
  - cbn in H. injection H as <-. apply follows_id. exact Hu.
  - unfold promote in H. apply (@index_follows _ _ n (promote_iop (sh (aval u)) (S k)) true true c2r th u u' Hn Hu); [|exact H].
    intros p Hp. cbn [promote_iop i_shape i_src fst snd length nth] in *. split; [lia|].
    rewrite <- (firstn_skipn (S k) p) in Hp. apply inb_app_inv in Hp; [exact (proj2 Hp)|]. rewrite firstn_length, repeat_length. apply inb_length in Hp. rewrite firstn_skipn, app_length, repeat_length in Hp. lia.
Qed.
Lemma zlist_eqb_eq a b : zlist_eqb a b = true -> a = b.
Proof. unfold zlist_eqb. destruct (list_eq_dec Z.eq_dec a b); congruence. Qed.
Lemma nlist_eqb_eq a b : nlist_eqb a b = true -> a = b.
Proof. unfold nlist_eqb. destruct (list_eq_dec Nat.eq_dec a b); congruence. Qed.
Lemma negdims_shift nl nr k (l m : list nat) : nl = (k + nr)%nat -> negdims nl l = negdims nr m -> l = map (fun d => (k + d)%nat) m.
Proof.
  intros E. revert m. induction l as [|x l IH]; intros [|y m] H; cbn in H |- *; try discriminate; auto. injection H as H1 H2. f_equal; [lia|auto].
Qed.
Lemma pos_shift k d m : pos (k + d) (map (fun d => (k + d)%nat) m) = pos d m.
Proof. induction m as [|x m IH]; cbn; auto. rewrite IH. destruct (Nat.eqb_spec x d), (Nat.eqb_spec (k + x) (k + d)); auto; lia. Qed.
Lemma mem_shift k d m : mem (k + d) (map (fun d => (k + d)%nat) m) = mem d m.
Proof. unfold mem. induction m as [|x m IH]; cbn; auto. rewrite IH. f_equal. destruct (Nat.eqb_spec d x), (Nat.eqb_spec (k + d) (k + x)); auto; lia. Qed.
Inductive incr : list nat -> Prop := incr_nil : incr [] | incr_cons x l : (forall y, In y l -> (x < y)%nat) -> incr l -> incr (x :: l).
Lemma incr_eq l m : incr l -> incr m -> (forall x, In x l <-> In x m) -> l = m.
Proof.
  intros Hl. revert m. induction Hl as [|x l Hx Hl IH]; intros m Hm H.
  - destruct m as [|y m]; auto. exfalso. apply (H y). left. reflexivity.
  - destruct Hm as [|y m Hy Hm]; [exfalso; apply (H x); left; reflexivity|]. assert (E : x = y).
    { destruct (proj1 (H x) (or_introl eq_refl)) as [E|E]; [auto|]. destruct (proj2 (H y) (or_introl eq_refl)) as [E2|E2]; [auto|]. apply Hy in E. apply Hx in E2. lia. }
    subst y. f_equal. apply IH; auto. intros z. split; intros Hz.
    + destruct (proj1 (H z) (or_intror Hz)) as [E|E]; auto. subst z. apply Hx in Hz. lia.
    + destruct (proj2 (H z) (or_intror Hz)) as [E|E]; auto. subst z. apply Hy in Hz. lia.
Qed.
Lemma incr_filter (P : nat -> bool) l : incr l -> incr (filter P l).
Proof. induction 1 as [|x l Hx Hl IH]; cbn; [constructor|]. destruct (P x); auto. constructor; auto. intros y Hy. apply filter_In in Hy. apply Hx. tauto. Qed.
Lemma incr_seq a n : incr (seq a n).
Proof. revert a. induction n as [|n IH]; intros a; cbn; constructor; auto. intros y Hy. apply in_seq in Hy. lia. Qed.
Lemma incr_sorted l : NoDup l -> sortedb l = true -> incr l.
Proof.
  induction l as [|x l IH]; intros Hnd H; [constructor|]. inversion Hnd; subst. destruct l as [|y l]; [repeat constructor; intros ? []|].
  cbn [sortedb] in H. apply andb_true_iff in H. destruct H as [H1 H2']. specialize (IH H3 H2'). constructor; auto. apply Nat.leb_le in H1. assert (x <> y) by (intros ->; apply H2; left; reflexivity).
  intros z [<-|Hz]; [lia|]. inversion IH as [|y' l' HY]; subst. apply HY in Hz. lia.
Qed.
Lemma sub_app_l (X : Type) (l m : list X) : NoDup (l ++ m) -> NoDup l.
Proof. induction l as [|x l IH]; cbn; [constructor|]. inversion 1; subst. constructor; auto. intros H'. apply H2. apply in_or_app. auto. Qed.
Lemma sub_app_r (X : Type) (l m : list X) : NoDup (l ++ m) -> NoDup m.
Proof. induction l as [|x l IH]; cbn; auto. inversion 1; subst. auto. Qed.
Lemma free_length (n : nat) b c : NoDup (b ++ c) -> (forall d, In d (b ++ c) -> (d < n)%nat) -> n = (length b + length c + length (free_dims n b c))%nat.
Proof.
  intros H1 H2. pose proof (@axes_keep_perm n (b ++ c) H1 H2) as HP. apply is_perm_length in HP. rewrite !app_length in HP. unfold free_dims. lia.
Qed.

Theorem special_path n c2r th D u v r : (0 < n)%nat -> als [u; v] <> [] -> vok n u -> vok n v -> let sl := sh (aval u) in let sr := sh (aval v) in dims_ok D sl sr ->
  special D sl sr = true -> fast_right D sl sr -> mul_sum c2r th (fun _ => lc D) u v = Some r ->
  exists a, r = AL a /\ bilin n u v (dot_shape D sl sr) (fun p => map (fun c => (lix D sl p c, rix D sl sr p c)) (allix (permute (lc D) sl))) a.
Proof.
  intros Hn Hne Hu Hv sl sr HD HS HR H. pose proof HD as (N1 & N2 & N3 & N4 & N5 & N6 & N7 & N8).
  unfold special in HS. apply andb_true_iff in HS. destruct HS as [HS _]. apply andb_true_iff in HS. destruct HS as [HS S5]. apply andb_true_iff in HS. destruct HS as [HS _]. apply andb_true_iff in HS. destruct HS as [HS _].
  apply andb_true_iff in HS. destruct HS as [S1 S2]. apply zlist_eqb_eq in S1, S2.
  pose proof (@free_length (length sl) (lb D) (lc D) N1 N2) as FL. pose proof (@free_length (length sr) (rb D) (rc D) N3 N4) as FR. fold (lf D sl) in FL. fold (rf D sr) in FR.
  unfold mul_sum in H. unfold ndim in H. fold sl in H. fold sr in H.
  destruct (promote c2r th (length sr - length sl) u) as [u'|] eqn:EU; [|discriminate]. cbn [bind] in H.
  destruct (promote c2r th (length sl - length sr) v) as [v'|] eqn:EV; [|discriminate]. cbn [bind] in H.
  destruct (wrap_fl mul_rule c2r th [u'; v']) as [m|] eqn:EM; [|discriminate]. cbn [bind] in H.
  pose proof (@promote_follows n c2r th _ u u' Hn Hu EU) as FU. pose proof (@promote_follows n c2r th _ v v' Hn Hv EV) as FV. fold sl in FU. fold sr in FV.
  pose proof FU as (SU & VU & AU & _). pose proof FV as (SV & VV & AV & _).
  assert (Hne' : als [u'; v'] <> []).
  { destruct u, v, u', v'; cbn in AU, AV |- *; try discriminate; exfalso; apply Hne; reflexivity. }
  (* the product has the larger of the two shapes, and element p' multiplies the trailing coordinates *)
  destruct HR as [(R1 & R2)|R1].
  - (* no free axis on the right *)
    set (k := length (lf D sl)) in *. rewrite R1 in FR. cbn [length] in FR. assert (NL : length sl = (k + length sr)%nat) by lia.
    pose proof (@negdims_shift _ _ k _ _ NL S1) as Elc. pose proof (@negdims_shift _ _ k _ _ NL S2) as Elb.
    replace (length sr - length sl)%nat with 0%nat in * by lia. replace (length sl - length sr)%nat with k in * by lia. cbn [repeat app skipn] in SU, FU.
    assert (HX : forall d, (d < length sr)%nat -> In d (rb D) \/ In d (rc D)).
    { intros d Hd. destruct (in_dec Nat.eq_dec d (rb D)); auto. destruct (in_dec Nat.eq_dec d (rc D)); auto. exfalso. assert (HI : In d (rf D sr)) by (apply free_In; auto). rewrite R1 in HI. destruct HI. }
    assert (ESR : skipn k sl = sr).
    { apply nth_ext with (d := 0%nat) (d' := 0%nat); [rewrite skipn_length; lia|]. intros d Hd. rewrite skipn_length in Hd. rewrite nth_skip. assert (Hd' : (d < length sr)%nat) by lia. destruct (HX d Hd') as [Hi|Hi].
      - pose proof (pos_lt _ _ Hi) as L. apply (f_equal (fun l => nth (pos d (rb D)) l 0%nat)) in N7. unfold permute in N7. rewrite !nth_map_in with (dx := 0%nat) in N7 by (rewrite ?N5; auto). rewrite nth_pos in N7 by auto.
        rewrite Elb in N7. rewrite nth_map_in with (dx := 0%nat) in N7 by auto. rewrite nth_pos in N7 by auto. exact N7.
      - pose proof (pos_lt _ _ Hi) as L. apply (f_equal (fun l => nth (pos d (rc D)) l 0%nat)) in N8. unfold permute in N8. rewrite !nth_map_in with (dx := 0%nat) in N8 by (rewrite ?N6; auto). rewrite nth_pos in N8 by auto.
        rewrite Elc in N8. rewrite nth_map_in with (dx := 0%nat) in N8 by auto. rewrite nth_pos in N8 by auto. exact N8. }
    assert (EB : bshape2 (sh (aval u')) (sh (aval v')) = Some sl).
    { rewrite SU, SV. rewrite <- (firstn_skipn k sl) at 1 2. rewrite ESR. apply bshape2_app; [reflexivity| |apply bshape2_self]. assert (EK : length (firstn k sl) = k) by (rewrite firstn_length; lia). rewrite <- EK at 2. apply bshape2_ones. }
    assert (KL : keep_pos (length sl) (lc D) = lb D ++ lf D sl).
    { destruct R2 as [R2|R2].
      - unfold lf, free_dims. rewrite R2. reflexivity.
      - rewrite R2, app_nil_r. apply incr_eq.
        + apply incr_filter, incr_seq.
        + apply incr_sorted; [exact (sub_app_l _ _ N1)|exact S5].
        + intros d. rewrite keep_pos_In. split.
          * intros [H1 H2]. destruct (in_dec Nat.eq_dec d (lb D)); auto. exfalso. assert (HI : In d (lf D sl)) by (apply free_In; auto). rewrite R2 in HI. destruct HI.
          * intros Hd. split; [apply N2; apply in_or_app; auto|]. intros Hd2. exact (@bc_disj (lc D) (lb D) N1 d Hd Hd2). }
    destruct (@bilin_mul _ _ n c2r th u' v' m sl Hn Hne' VU VV EB EM) as (m' & -> & BM). cbn [Verif.Wrap.aval] in H.
    pose proof BM as (SM & _). assert (NM : ndim (lx m') = length sl) by (unfold ndim; rewrite SM; reflexivity). rewrite <- SM in BM.
    destruct (@bilin_sum _ _ n c2r th u' v' m' _ (lc D) r Hn (sub_app_r _ _ N1) ltac:(intros d Hd; rewrite NM; apply N2; apply in_or_app; auto) BM H) as (a & -> & BA).
    exists a. split; [reflexivity|]. rewrite NM, SM, KL, permute_app in BA.
    pose proof (@bilin_follows _ _ n u v u' v' _ _ _ _ _ _ a FU FV BA) as BA2.
    assert (ES : dot_shape D sl sr = permute (lb D) sl ++ permute (lf D sl) sl) by (unfold dot_shape; rewrite R1; cbn [permute map]; rewrite app_nil_r; reflexivity). rewrite ES.
    revert BA2. apply bilin_ext. intros p Hp. rewrite SU, SV. rewrite flat_map_concat_map, concat_map, map_map. cbn [map fst snd].
    assert (EI : map (fun x => [(bproj sl (weave (length sl) (lc D) p x), skipn k (bproj (repeat 1%nat k ++ sr) (weave (length sl) (lc D) p x)))]) (allix (permute (lc D) sl)) = map (fun c => [(lix D sl p c, rix D sl sr p c)]) (allix (permute (lc D) sl))).
    { apply map_ext_in. intros c Hc. apply allix_spec in Hc. assert (WI : inb (weave (length sl) (lc D) p c) sl).
      { apply weave_inb; [exact (sub_app_r _ _ N1)|intros d Hd; apply N2; apply in_or_app; auto| |exact Hc]. rewrite KL, permute_app. exact Hp. }
      assert (E1 : weave (length sl) (lc D) p c = lix D sl p c).
      { unfold weave, lix. apply map_ext_in. intros d Hd. apply in_seq in Hd. fold (mem d (lc D)). rewrite KL. destruct (mem d (lc D)) eqn:Ec.
        - assert (Eb : mem d (lb D) = false) by (apply mem_nIn; intros Hb; apply mem_In in Ec; exact (@bc_disj (lc D) (lb D) N1 d Hb Ec)). rewrite Eb. reflexivity.
        - destruct (mem d (lb D)) eqn:Eb; [rewrite pos_app_l by (apply mem_In; exact Eb); reflexivity|rewrite pos_app_r by (apply mem_nIn; exact Eb); reflexivity]. }
      f_equal. f_equal; [rewrite bproj_same by exact WI; exact E1|].
      rewrite E1 in *. pose proof (inb_length WI) as LW.
      apply nth_ext with (d := 0%nat) (d' := 0%nat); [unfold rix; rewrite skipn_length, bproj_length, map_length, seq_length, app_length, repeat_length by (rewrite app_length, repeat_length; lia); lia|].
      intros d Hd. rewrite skipn_length, bproj_length, app_length, repeat_length in Hd by (rewrite app_length, repeat_length; lia). assert (Hd' : (d < length sr)%nat) by lia.
      rewrite nth_skip. rewrite (@bproj_keep (repeat 1%nat k ++ sr) sl) by (auto; rewrite ?app_length, ?repeat_length; try lia; rewrite app_nth2 by (rewrite repeat_length; lia); rewrite repeat_length; replace (k + d - k)%nat with d by lia; rewrite <- ESR, nth_skip; reflexivity).
      unfold lix, rix. rewrite !nth_map_in with (dx := 0%nat) by (rewrite seq_length; lia). rewrite !seq_nth by lia. cbn [Nat.add].
      rewrite Elb, Elc, !mem_shift, !pos_shift. destruct (mem d (rb D)) eqn:Eb; [reflexivity|]. destruct (mem d (rc D)) eqn:Ec; [reflexivity|]. exfalso. apply mem_nIn in Eb, Ec. destruct (HX d Hd'); auto. }
    apply (Permutation_trans (l' := concat (map (fun c => [(lix D sl p c, rix D sl sr p c)]) (allix (permute (lc D) sl))))); [apply Permutation_refl'; f_equal; exact EI|]. generalize (allix (permute (lc D) sl)). intros l. clear. induction l as [|x l IH]; cbn; [constructor|]. constructor. exact IH.
  - (* a scalar on the left *)
    assert (LB : lb D = []). { destruct (lb D) as [|d l] eqn:E; auto. exfalso. specialize (N2 d (or_introl eq_refl)). rewrite R1 in N2. cbn in N2. lia. }
    assert (LC : lc D = []). { destruct (lc D) as [|d l] eqn:E; auto. exfalso. specialize (N2 d). rewrite LB in N2. specialize (N2 (or_introl eq_refl)). rewrite R1 in N2. cbn in N2. lia. }
    assert (RB : rb D = []) by (rewrite LB in N5; destruct (rb D); [reflexivity|discriminate]).
    assert (RC : rc D = []) by (rewrite LC in N6; destruct (rc D); [reflexivity|discriminate]).
    assert (LF : lf D sl = []) by (unfold lf, free_dims; rewrite R1; reflexivity).
    assert (RF : rf D sr = seq 0 (length sr)) by (unfold rf, free_dims; rewrite RB, RC; apply keep_pos_nil).
    rewrite R1 in SU, SV, FU, FV. cbn [length] in SU, SV, FU, FV. rewrite Nat.sub_0_r, app_nil_r in SU, FU. cbn [Nat.sub repeat app skipn] in SV, FV.
    assert (EB : bshape2 (sh (aval u')) (sh (aval v')) = Some sr) by (rewrite SU, SV; apply bshape2_ones).
    destruct (@bilin_mul _ _ n c2r th u' v' m sr Hn Hne' VU VV EB EM) as (m' & -> & BM). cbn [Verif.Wrap.aval] in H. rewrite LC in H.
    pose proof BM as (SM & _). assert (NM : ndim (lx m') = length sr) by (unfold ndim; rewrite SM; reflexivity). rewrite <- SM in BM.
    destruct (@bilin_sum _ _ n c2r th u' v' m' _ [] r Hn (NoDup_nil _) ltac:(intros d []) BM H) as (a & -> & BA).
    exists a. split; [reflexivity|]. rewrite NM, SM, keep_pos_nil, permute_id in BA.
    pose proof (@bilin_follows _ _ n u v u' v' _ _ _ _ _ _ a FU FV BA) as BA2.
    assert (ES : dot_shape D sl sr = sr) by (unfold dot_shape; rewrite LB, LF, RF; cbn [permute map app]; apply permute_id). rewrite ES.
    revert BA2. apply bilin_ext. intros p Hp. pose proof (inb_length Hp) as Lp. rewrite SU, SV, LC. cbn [permute map allix flat_map app fst snd]. rewrite weave_nil by exact Lp. apply Permutation_refl'. f_equal. f_equal.
    + unfold lix. rewrite R1. cbn [length seq map]. apply skipn_all2. rewrite bproj_length; rewrite repeat_length; lia.
    + rewrite bproj_same by exact Hp. unfold rix. rewrite RB, RC, RF, LF. cbn [mem existsb length Nat.add]. rewrite <- Lp. rewrite <- (permute_id p) at 1. unfold permute. apply map_ext_in. intros d Hd. apply in_seq in Hd.
      pose proof (@pos_nth (seq 0 (length p)) d 0%nat (seq_NoDup _ _)) as G. rewrite seq_length, seq_nth in G by lia. cbn [Nat.add] in G. rewrite G by lia. reflexivity.
Qed.

(* dot_general, with at least one derivative-carrying operand *)
Theorem dot_general_sound n c2r th D u v r : (0 < n)%nat -> als [u; v] <> [] -> vok n u -> vok n v -> let sl := sh (aval u) in let sr := sh (aval v) in dims_ok D sl sr ->
  (sparse_arg u && sparse_arg v = true -> fast_taken D sl sr = true -> fast_right D sl sr) ->
  dot_general c2r th D u v = Some r ->
  exists a, r = AL a /\ bilin n u v (dot_shape D sl sr) (fun p => map (fun c => (lix D sl p c, rix D sl sr p c)) (allix (permute (lc D) sl))) a.
Proof.
  intros Hn Hne Hu Hv sl sr HD HR H. unfold dot_general in H. fold sl sr in H.
  assert (E0 : negb (is_al u) && negb (is_al v) = false) by (destruct u, v; try reflexivity; exfalso; apply Hne; reflexivity). rewrite E0 in H.
  match type of H with (let* x := ?e in _) = _ => destruct e as [u'|] eqn:EU end; [|discriminate]. cbn [bind] in H.
  match type of H with (let* x := ?e in _) = _ => destruct e as [v'|] eqn:EV end; [|discriminate]. cbn [bind] in H.
  destruct (@general_path n c2r th D u v u' v' r Hn Hne Hu Hv HD EU EV) as (SU & SV & HG). fold sl sr in SU, SV, HG. set (K := prod (permute (lc D) sl)) in *.
  rewrite SU, SV in H. rewrite (@bshape2_app (lpre D sl sr) (rpre D sl sr) (dot_shape D sl sr) [K] [K] [K] eq_refl (pre_b HD) (bshape2_self _)) in H. cbn [bind] in H.
  assert (P1 : forall s : shape, prod (s ++ [K]) = (prod s * K)%nat) by (intros s; rewrite prod_app; cbn; lia). rewrite !P1 in H.
  assert (P2 : prod (lpre D sl sr) = prod (permute (lb D) sl ++ permute (lf D sl) sl)) by (unfold lpre; rewrite !prod_app, prod_ones; lia).
  assert (P3 : prod (rpre D sl sr) = prod (permute (rb D) sr ++ permute (rf D sr) sr)) by (unfold rpre; rewrite !prod_app, prod_ones; lia). rewrite P2, P3 in H.
  destruct (_ && (sparse_arg u && sparse_arg v)) eqn:EF; [|apply HG; auto].
  destruct (special D sl sr) eqn:ES; [|apply HG; auto].
  apply andb_true_iff in EF. destruct EF as [EF EW]. apply (@special_path n c2r th D u v r Hn Hne Hu Hv HD ES); [|exact H]. apply HR; [exact EW|]. unfold fast_taken. cbv zeta. fold K. rewrite EF. exact ES.
Qed.
(* two plain operands *)
Lemma dot_general_plain c2r th D (x y : nd A) : dot_general c2r th D (AX x) (AX y) = Some (AX (o_fwd (op_dot D) [x; y])).
Proof. reflexivity. Qed.
End Sound.
