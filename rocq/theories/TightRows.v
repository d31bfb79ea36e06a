(* TightRows.v : a dense Jacobian only arises once the number of non-zero entries per output exceeds the threshold; it then has at least
   threshold-many rows.  This is the condition under which mixing sparse and dense Jacobians is exact (C16, C17). *)
From Verif Require Export DenseRows DotGen.
From Coq Require Import ZifyBool.
Set Implicit Arguments.
Open Scope nat_scope.

Lemma zbound (l : list Z) lo k : NoDup l -> (forall z, In z l -> (lo <= z < lo + Z.of_nat k)%Z) -> length l <= k.
Proof.
  intros Hn H. assert (E : k = length (map (fun i => (lo + Z.of_nat i)%Z) (seq 0 k))) by (rewrite map_length, seq_length; reflexivity).
  rewrite E. apply NoDup_incl_length; auto. intros z Hz. apply H in Hz. apply in_map_iff. exists (Z.to_nat (z - lo)).
  split; [lia|]. apply in_seq. lia.
Qed.
Lemma maxl_in (l : list nat) : l <> [] -> In (maxl l) l.
Proof.
  induction l as [|x l IH]; [congruence|]. intros _. cbn [maxl fold_right]. fold (maxl l). destruct l as [|y l'].
  - cbn. left. lia.
  - destruct (Nat.max_spec x (maxl (y :: l'))) as [[_ E]|[_ E]]; rewrite E; [right; apply IH; discriminate|left; reflexivity].
Qed.
(* every entry of a reshaped transposed array is an entry of the array *)
Lemma transpose_entry {A} ord (a : nd A) j : is_perm ord (ndim a) -> inb j (sh (transpose ord a)) -> exists i, inb i (sh a) /\ at_ (transpose ord a) j = at_ a i.
Proof.
  intros Hp Hj. rewrite transpose_sh in Hj. exists (map (fun d => nth (pos d ord) j 0) (seq 0 (ndim a))). split; [|reflexivity].
  rewrite <- (@permute_argsort ord (ndim a) (sh a) Hp eq_refl). unfold argsort. rewrite (is_perm_length Hp). unfold permute at 1. rewrite map_map.
  assert (G : forall l, (forall d, In d l -> d < ndim a) -> inb (map (fun d => nth (pos d ord) j 0) l) (map (fun d => nth (pos d ord) (permute ord (sh a)) 0) l)).
  { induction l as [|d l IH]; intros H; cbn [map]; [constructor|]. constructor; [|apply IH; intros e He; apply H; right; exact He].
    apply inb_nth; [exact Hj|]. rewrite permute_length. apply pos_lt. apply (is_perm_In d Hp), H. left. reflexivity. }
  apply G. intros d Hd. apply in_seq in Hd. lia.
Qed.
Lemma rt_entry {A} ord (a : nd A) new i : is_perm ord (ndim a) -> prod new = prod (sh (transpose ord a)) -> inb i new ->
  exists j, inb j (sh a) /\ at_ (reshape new (transpose ord a)) i = at_ a j.
Proof.
  intros Hp Hs Hi. rewrite reshape_at. apply transpose_entry; auto. apply unravel_inb. rewrite <- Hs. apply ravel_lt, Hi.
Qed.

Section T.
Context {A : Type} {RA : CRing A}.
Add Ring Aring_TR : (@rth A RA).
Open Scope cr_scope.
(* invariant: sparse, or at least threshold rows *)
Definition tj (th : Z) (J : jac A) : Prop := weak J = true \/ (th <= Z.of_nat (rows (jdata J)))%Z.
(* the same for an argument *)
Definition tight (th : Z) (v : arg A) : Prop := match v with AL a => tj th (ljac a) | AX _ => True end.
Lemma dense_jac_array (J : jac A) : weak J = false -> dense_array J = Some (jdata J).
Proof. unfold weak, dense_array. destruct (jidx J); [discriminate|reflexivity]. Qed.

(* ---- dense propagation keeps the rows of every argument ---- *)
Lemma ext_rows_ge n args dj a D : (0 < n)%nat -> args <> [] -> (forall a, In a args -> awf n a) -> dense_jacobian args = Some dj ->
  In a args -> dense_array (ljac a) = Some D -> (rows D <= maxl (map rows dj))%nat /\
  (forall x, In x (extend_jacobians dj) -> exists k s, sh x = k :: s) /\ maxl (map rows (extend_jacobians dj)) = maxl (map rows dj) /\
  forall i, (i < length args)%nat -> sh (nth i (extend_jacobians dj) nd0) = maxl (map rows dj) :: sh (lx (nth i args la0)).
Proof.
  intros Hn Hne Hwf Hd Ha HD. pose proof Hd as Hd'. unfold dense_jacobian in Hd. apply sequence_spec in Hd. destruct Hd as [Hl Hnth]. rewrite map_length in Hl, Hnth.
  destruct (@ext_spec _ _ n args dj Hn Hne Hwf Hd') as (M & L & EM & HM & HX).
  assert (HM2 : M = maxl (map rows dj)).
  { assert (dj <> []) as Hdj by (intros ->; destruct args; cbn in Hl; congruence). destruct (extend_jacobians_spec Hdj) as [He Hext].
    assert (0 < length args)%nat as H0 by (destruct args; [congruence|cbn; lia]). destruct (HX 0%nat H0) as [S0 _].
    specialize (Hnth 0%nat nd0 None H0). rewrite nth_map_in with (dx := la0) in Hnth by auto.
    assert (awf n (nth 0 args la0)) as [W _] by (apply Hwf, nth_In; auto).
    destruct (dense_array_sound W Hn Hnth) as (K & SK & _). destruct (Hext 0%nat ltac:(lia) nd0 _ _ SK) as [S1 _]. rewrite S0 in S1. congruence. }
  split; [|split; [|split]].
  - apply (In_nth _ _ la0) in Ha. destruct Ha as (i & Hi & <-). specialize (Hnth i nd0 None Hi). rewrite nth_map_in with (dx := la0) in Hnth by auto.
    rewrite HD in Hnth. injection Hnth as ->. apply maxl_ge, in_map, nth_In. lia.
  - intros x Hx. apply (In_nth _ _ nd0) in Hx. destruct Hx as (i & Hi & <-). rewrite L in Hi. destruct (HX i Hi) as [S _]. eauto.
  - congruence.
  - intros i Hi. destruct (HX i Hi) as [S _]. rewrite <- HM2. exact S.
Qed.
Lemma split_rows_ge n f args a D r : (0 < n)%nat -> args <> [] -> (forall a, In a args -> awf n a) -> In a args -> dense_array (ljac a) = Some D ->
  dense_split_jvp f args = Some r -> (rows D <= rows (snd (fst r)))%nat.
Proof.
  intros Hn Hne Hwf Ha HD E. unfold dense_split_jvp in E. destruct (dense_jacobian args) as [dj|] eqn:Ed; [|discriminate]. cbn [bind] in E. injection E as <-.
  destruct (@ext_rows_ge n args dj a D Hn Hne Hwf Ed Ha HD) as (H1 & _ & H3 & _). cbn [fst snd]. unfold vmap_jvp, stack, rows at 2. cbn [sh hd]. rewrite H3. exact H1.
Qed.
Lemma joint_rows_ge n f args a D r : (0 < n)%nat -> args <> [] -> (forall a, In a args -> awf n a) -> In a args -> dense_array (ljac a) = Some D ->
  dense_joint_jvp f args = Some r -> (rows D <= rows (snd (fst r)))%nat.
Proof.
  intros Hn Hne Hwf Ha HD E. unfold dense_joint_jvp in E. destruct (dense_jacobian args) as [dj|] eqn:Ed; [|discriminate]. cbn [bind] in E. injection E as <-.
  destruct (@ext_rows_ge n args dj a D Hn Hne Hwf Ed Ha HD) as (H1 & _ & H3 & H4). cbn [fst snd]. unfold butlast, rows at 2. cbn [sh hd]. unfold vmap_jvp, stack, rows at 2. cbn [sh hd].
  destruct (@ext_spec _ _ n args dj Hn Hne Hwf Ed) as (M & L & _).
  assert (maxl (map rows dj) + 1 <= maxl (map rows (map2 (fun j l : nd A => concat0 (0%cr : A) [j; expand0 l]) (extend_jacobians dj) (laps_of args))))%nat; [|lia].
  destruct args as [|b args']; [congruence|]. destruct (extend_jacobians dj) as [|x ext'] eqn:Ex; [discriminate L|].
  specialize (H4 0%nat ltac:(cbn; lia)). cbn [nth] in H4. cbn [map map2 laps_of maxl fold_right].
  destruct (Hwf b (or_introl eq_refl)) as [_ E2].
  assert (E3 : sh (expand0 (llap b)) = 1%nat :: sh (lx b)) by (cbn; rewrite E2; reflexivity).
  assert (rows (concat0 (0%cr : A) [x; expand0 (llap b)]) = maxl (map rows dj) + 1)%nat by (unfold rows at 1; rewrite (concat2_sh _ _ _ H4 E3); reflexivity). lia.
Qed.
Lemma elem_rows_ge n f a D r : (0 < n)%nat -> awf n a -> dense_array (ljac a) = Some D -> dense_elementwise_jvp f a = Some r -> (rows D <= rows (snd (fst r)))%nat.
Proof.
  intros Hn Hwf HD E. unfold dense_elementwise_jvp in E. destruct (sheq _ _) eqn:Es; cbn [negb] in E.
  - rewrite HD in E. cbn [bind] in E. set (j := vjp1 f (lx a) (ones_like (o_fwd f [lx a]))) in *.
    destruct (dense_array_sound (proj1 Hwf) Hn HD) as (K & SK & _).
    destruct (@bin_row_mul _ _ j D K (sh (lx a)) eq_refl SK) as (g & Eg & Sg & _). rewrite Eg in E. cbn [bind] in E. destruct (bin rmul j (llap a)); [|discriminate]. cbn [bind] in E. injection E as <-. cbn [fst snd]. unfold rows. rewrite Sg, SK. cbn. lia.
  - apply (@split_rows_ge n f [a] a D r); auto; [discriminate| |left; reflexivity]. intros b [<-|[]]. exact Hwf.
Qed.
Lemma dense_jvp_rows_ge n f args a D fl ax r : (0 < n)%nat -> args <> [] -> (forall a, In a args -> awf n a) -> In a args -> dense_array (ljac a) = Some D ->
  dense_jvp f args fl ax = Some r -> (rows D <= rows (jdata (snd (fst r))))%nat.
Proof.
  intros Hn Hne Hwf Ha HD E. unfold dense_jvp in E. match type of E with bind ?x _ = _ => destruct x as [[[y g] l]|] eqn:Ex; [|discriminate] end. cbn [bind] in E. injection E as <-. cbn [fst snd jdata].
  destruct args as [|b [|c l']]; [congruence| |].
  - destruct Ha as [->|[]]. destruct (axes_nil ax); [apply (@elem_rows_ge n f a D _ Hn (Hwf a (or_introl eq_refl)) HD Ex)|]. destruct (has JOIN_JVP fl); [apply (@joint_rows_ge n f [a] a D _ Hn Hne Hwf (or_introl eq_refl) HD Ex)|apply (@split_rows_ge n f [a] a D _ Hn Hne Hwf (or_introl eq_refl) HD Ex)].
  - destruct (has JOIN_JVP fl); [apply (@joint_rows_ge n f _ a D _ Hn Hne Hwf Ha HD Ex)|apply (@split_rows_ge n f _ a D _ Hn Hne Hwf Ha HD Ex)].
Qed.
Lemma dense_jvp_tight n th f args fl ax r : (0 < n)%nat -> args <> [] -> (forall a, In a args -> awf n a /\ tj th (ljac a)) -> all_weak args = false ->
  dense_jvp f args fl ax = Some r -> tj th (snd (fst r)).
Proof.
  intros Hn Hne H Hw E. assert (exists a, In a args /\ weak (ljac a) = false) as (a & Ha & Wa).
  { clear - Hw. unfold all_weak in Hw. induction args as [|a l IH]; [discriminate|]. cbn [forallb] in Hw. destruct (weak (ljac a)) eqn:E; [|exists a; split; [left; reflexivity|exact E]].
    destruct (IH Hw) as (b & Hb & Wb). exists b. split; [right; exact Hb|exact Wb]. }
  right. destruct (H a Ha) as [_ [C|C]]; [congruence|]. pose proof (@dense_jvp_rows_ge n f args a _ fl ax r Hn Hne (fun b Hb => proj1 (H b Hb)) Ha (dense_jac_array _ Wa) E). lia.
Qed.

(* ---- sparse rules ---- *)
Lemma diag_tight n th f args fl ax r : (0 < n)%nat -> args <> [] -> (forall a, In a args -> awf n a /\ tj th (ljac a)) -> sparse_diag_jvp f args fl ax = Some r -> tj th (snd (fst r)).
Proof.
  intros Hn Hne H E. unfold sparse_diag_jvp in E. destruct (all_weak args) eqn:Hw; cbn [negb] in E; [|apply (@dense_jvp_tight n th f args fl ax r Hn Hne H Hw E)].
  match type of E with bind ?o _ = _ => destruct o as [[g l]|]; [|discriminate] end. cbn [bind] in E.
  match type of E with bind ?o _ = _ => destruct o as [[rm g2]|]; [|discriminate] end. cbn [bind] in E.
  destruct (broadcast_mask_to_jacobian rm g2) as [rm2|]; [|discriminate]. cbn [bind] in E.
  destruct (sheq (sh g2) (sh rm2)); [|discriminate]. injection E as <-. left. reflexivity.
Qed.
(* specification: index operations whose indices are known at trace time *)
Definition static_index (g : iop) (ok filled : bool) (mg : mergefn) (n ne : nat) : Prop :=
  ok = true /\ (filled = true \/ forall p, inb p (i_shape g) -> (nth (fst (i_src g p)) (mg nat (seq 0 n) (seq n ne)) 0 < n)%nat).
Lemma index_tight n th g ok filled mg args extra fl ax r : (0 < n)%nat -> args <> [] -> (forall a, In a args -> awf n a /\ tj th (ljac a)) ->
  static_index g ok filled mg (length args) (length extra) -> sparse_index_jvp g ok filled mg args extra fl ax = Some r -> tj th (snd (fst r)).
Proof.
  intros Hn Hne H [-> Hf] E. unfold sparse_index_jvp in E. destruct (all_weak args) eqn:Hw; cbn [negb] in E; [|apply (@dense_jvp_tight n th _ args fl ax r Hn Hne H Hw E)].
  cbn [orb] in E. match type of E with (if ?c then _ else _) = _ => assert (c = false) as Ec end.
  { destruct filled; [reflexivity|]. cbn [negb andb]. destruct Hf as [|Hf]; [discriminate|]. apply not_true_iff_false. intros C. apply existsb_exists in C.
    destruct C as (p & Hp & C). apply allix_spec in Hp. apply Nat.leb_le in C. specialize (Hf p Hp). lia. }
  rewrite Ec in E. destruct (sheq _ _); [|discriminate]. injection E as <-. left. reflexivity.
Qed.
Lemma outdeps_rows (idx : nd Z) C mo : rows (compute_outdeps idx C) = mo -> mo = 1%nat \/ exists c, (c < C)%nat /\ length (uniqZ (column idx c)) = mo.
Proof.
  intros E. unfold compute_outdeps, rows in E. cbn [sh hd] in E. destruct C as [|C].
  - left. cbn in E. lia.
  - assert (In (maxl (map (fun c => length (uniqZ (column idx c))) (seq 0 (S C)))) (map (fun c => length (uniqZ (column idx c))) (seq 0 (S C)))) as Hin by (apply maxl_in; discriminate).
    destruct (Nat.le_gt_cases mo 1) as [L|L]; [left; lia|right]. apply in_map_iff in Hin. destruct Hin as (c & Ec & Hc). apply in_seq in Hc. exists c. split; lia.
Qed.
Lemma sum_tight n th a axes r : (0 < n)%nat -> awf n a -> NoDup axes -> (forall d, In d axes -> (d < ndim (lx a))%nat) -> sparse_sum_jvp a axes th = Some r -> tj th (snd (fst r)).
Proof.
  intros Hn [Hwf Hl] Hnd Hlt H. unfold sparse_sum_jvp in H.
  destruct (jidx (ljac a)) as [m|] eqn:Em; [|discriminate].
  destruct (jwf_sparse Hwf Em) as (Hd & Hm & Hran). set (k := rows (jdata (ljac a))) in *.
  set (s := sh (lx a)) in *. unfold ndim in Hlt. fold s in Hlt. set (t := permute (keep_pos (length s) axes) s).
  assert (sh (np_sum axes (lx a)) = t) as Hy by reflexivity.
  cbv zeta in H. rewrite Hy in H.
  set (ord := (0%nat :: map S axes) ++ filter (fun d => negb (existsb (Nat.eqb d) (0%nat :: map S axes))) (seq 0 (ndim (jdata (ljac a))))) in *.
  assert (ndim (jdata (ljac a)) = S (length s)) as Hnj by (unfold ndim; rewrite Hd; reflexivity).
  assert (filter (fun d => negb (existsb (Nat.eqb d) (0%nat :: map S axes))) (seq 0 (S (length s))) = map S (keep_pos (length s) axes)) as Hflt.
  { assert (forall d, existsb (Nat.eqb (S d)) (0%nat :: map S axes) = existsb (Nat.eqb d) axes) as E.
    { intros d. clear. cbn. induction axes; cbn; auto. rewrite IHaxes. reflexivity. }
    change (seq 0 (S (length s))) with (0%nat :: seq 1 (length s)). rewrite <- seq_shift. unfold keep_pos. cbn [filter].
    change (existsb (Nat.eqb 0) (0%nat :: map S axes)) with true. cbn [negb].
    generalize (seq 0 (length s)). intros ls. induction ls as [|d ls IH]; [reflexivity|]. cbn [map filter].
    rewrite E. destruct (existsb (Nat.eqb d) axes); cbn [negb map]; [exact IH|f_equal; exact IH]. }
  assert (ord = 0%nat :: map S (axes ++ keep_pos (length s) axes)) as Hord.
  { unfold ord. rewrite Hnj, Hflt. cbn [app]. rewrite map_app. reflexivity. }
  assert (is_perm ord (S (length s))) as Hperm.
  { rewrite Hord. unfold is_perm. cbn [seq]. constructor. rewrite <- seq_shift. apply Permutation_map. apply axes_keep_perm; auto. }
  assert (forall x (l : list nat), permute ord (x :: l) = x :: permute axes l ++ permute (keep_pos (length s) axes) l) as Hpo.
  { intros x l0. rewrite Hord, permute_cons. cbn [nth]. f_equal. unfold permute. rewrite map_map, map_app. reflexivity. }
  set (u := permute axes s) in *.
  assert (sh (transpose ord m) = (k :: u) ++ t) as Htm by (rewrite transpose_sh, Hm, Hpo; reflexivity).
  assert (length (0%nat :: map S axes) = length (k :: u)) as Hlr by (cbn; rewrite map_length; unfold u; rewrite permute_length; auto).
  rewrite Htm, Hlr in H. rewrite firstn_app_exact in H by auto.
  set (R := prod (k :: u)) in *. set (C := prod t) in *.
  destruct (Nat.eqb C 0) eqn:EC; [discriminate|].
  set (idx := reshape [R; C] (transpose ord m)) in *.
  set (io := compute_outdeps idx C) in *.
  assert (forall i, inb i [R; C] -> (-1 <= at_ idx i)%Z) as Hlow.
  { intros i Hi. unfold idx. destruct (@rt_entry _ ord m [R; C] i) as (j & Hj & Ej); auto.
    - unfold ndim. rewrite Hm. exact Hperm.
    - rewrite Htm, prod_app. change (prod [R; C]) with (R * (C * 1))%nat. fold R C. rewrite Nat.mul_1_r. reflexivity.
    - rewrite Ej. rewrite Hm in Hj. destruct j as [|r0 q]; [inversion Hj|]. apply inb_cons in Hj. destruct Hj as [Hr Hq]. apply (Hran r0 q Hr Hq). }
  destruct (th <? Z.of_nat (rows io))%Z eqn:Eth.
  2:{ destruct (compact _) as [ic rep]. injection H as <-. left. reflexivity. }
  destruct (compact _) as [ic rep]. injection H as <-. right. cbn [fst snd jdata]. unfold rows at 1. cbn [reshape sh hd].
  apply Z.ltb_lt in Eth. destruct (@outdeps_rows idx C (rows io) eq_refl) as [E1|(c & Hc & Ec)]; [lia|].
  assert (rows io <= Z.to_nat (listmaxZ (flat idx) + 2))%nat; [|lia].
  rewrite <- Ec. apply (@zbound _ (-1)%Z); [apply uniqZ_NoDup|]. intros z Hz. rewrite uniqZ_In in Hz. unfold column in Hz. apply in_map_iff in Hz.
  destruct Hz as (r0 & <- & Hr). apply in_seq in Hr. assert (Hin : inb [r0; c] [R; C]) by (repeat constructor; auto; apply Hr).
  pose proof (Hlow _ Hin). assert (at_ idx [r0; c] <= listmaxZ (flat idx))%Z; [|lia].
  assert (In (at_ idx [r0; c]) (flat idx)) as Hf by (apply flat_In; exists [r0; c]; split; auto).
  unfold listmaxZ. destruct (flat idx) as [|z0 l0]; [destruct Hf|]. destruct (fold_max_ge l0 z0) as [G1 G2]. destruct Hf as [<-|Hf]; auto.
Qed.
Lemma reduction_rows J m n s axes gt om D : jwf n s J -> jidx J = Some m -> NoDup axes -> (forall d, In d axes -> (d < length s)%nat) ->
  get_jacobian_for_reduction J axes = Some (gt, om) -> dense_array J = Some D -> (rows om <= rows D)%nat.
Proof.
  intros Hwf Em Hnd Hlt H HD. destruct (jwf_sparse Hwf Em) as (Hd & Hm & Hran).
  set (k := rows (jdata J)) in *. unfold get_jacobian_for_reduction in H. cbv zeta in H. rewrite (mask_sparse _ Em) in H.
  set (m1 := bexc1 (tl (sh m)) m) in *.
  assert (sh m1 = k :: s) as Hm1 by (unfold m1; rewrite bexc1_sh, (rows_cons _ Hm), Hm; reflexivity).
  assert (forall r q, (r < k)%nat -> inb q s -> at_ m1 (r :: q) = at_ m (r :: q)) as Hm1a.
  { intros r q Hr Hq. unfold m1. rewrite Hm. cbn [tl]. rewrite (bexc1_at _ _ _ Hm Hr) by (rewrite (inb_length Hq); auto).
    rewrite bproj_same; auto. }
  unfold ndim in H. rewrite Hm1 in H. cbn [tl length] in H.
  set (jred := map S axes ++ [0%nat]) in *. set (keep := keep_pos (length s) axes).
  assert (filter (fun d => negb (existsb (Nat.eqb d) jred)) (seq 0 (S (length s))) = map S keep) as Hkept.
  { assert (forall d, existsb (Nat.eqb (S d)) jred = existsb (Nat.eqb d) axes) as E.
    { intros d. unfold jred. rewrite existsb_app. cbn. rewrite orb_false_r. clear. induction axes; cbn; auto. rewrite IHaxes. reflexivity. }
    change (seq 0 (S (length s))) with (0%nat :: seq 1 (length s)). rewrite <- seq_shift. unfold keep, keep_pos. cbn [filter].
    assert (existsb (Nat.eqb 0) jred = true) as E0 by (apply existsb_eqb_In; unfold jred; apply in_or_app; cbn; auto).
    rewrite E0. cbn [negb]. generalize (seq 0 (length s)). intros ls. induction ls as [|d ls IH]; [reflexivity|]. cbn [map filter].
    rewrite E. destruct (existsb (Nat.eqb d) axes); cbn [negb map]; [exact IH|f_equal; exact IH]. }
  rewrite Hkept in H. set (t := permute keep s).
  assert (permute (map S keep) (k :: s) = t) as Hks by (unfold permute; rewrite map_map; reflexivity).
  rewrite Hks in H. rewrite (rows_cons _ Hm1) in H.
  set (rsize := prod (permute axes s)) in *. set (ksize := prod t) in *. set (ord := map S keep ++ jred) in *.
  assert (is_perm ord (S (length s))) as Hperm.
  { unfold ord, jred, is_perm. rewrite app_assoc, <- map_app. eapply Permutation_trans; [apply Permutation_app_comm|].
    cbn [app seq]. constructor. rewrite <- seq_shift. apply Permutation_map.
    eapply Permutation_trans; [apply Permutation_app_comm|]. apply axes_keep_perm; auto. }
  assert (forall x (l : list nat), permute ord (x :: l) = permute keep l ++ permute axes l ++ [x]) as Hpo.
  { intros x l0. unfold ord, jred. rewrite !permute_app. unfold permute. rewrite !map_map. reflexivity. }
  set (m3 := reshape [ksize; rsize; k] (transpose ord m1)) in *.
  set (per := fun b => filter (fun z => negb (Z.eqb z (-1))) (uniqZ (flat (row m3 b)))) in *.
  set (mu := maxl (map (fun b => length (per b)) (seq 0 ksize))) in *.
  match type of H with (let* im := ?o in _) = _ => destruct o as [im|]; [|discriminate] end. cbn [bind] in H.
  match type of H with (let* jj := ?o in _) = _ => destruct o as [jj|]; [|discriminate] end. cbn [bind] in H. injection H as _ <-.
  unfold rows at 1. cbn [reshape sh hd].
  assert (forall b, (b < ksize)%nat -> (length (per b) <= rows D)%nat) as Hb.
  { intros b Hb. apply (@zbound _ 0%Z); [apply NoDup_filter, uniqZ_NoDup|]. intros z Hz. unfold per in Hz. apply filter_In in Hz. destruct Hz as [Hz Hz1].
    rewrite uniqZ_In in Hz. apply flat_In in Hz. destruct Hz as (i & Hi & Ei). unfold row in Hi, Ei. cbn [m3 reshape sh tl at_] in Hi, Ei.
    destruct (@rt_entry _ ord m1 [ksize; rsize; k] (b :: i)) as (j & Hj & Ej).
    - unfold ndim. rewrite Hm1. exact Hperm.
    - rewrite transpose_sh, Hm1, Hpo, !prod_app. reflexivity.
    - constructor; auto.
    - unfold reshape in Ej. cbn [at_] in Ej. rewrite Ej in Ei. rewrite Hm1 in Hj. destruct j as [|r q]; [inversion Hj|]. apply inb_cons in Hj. destruct Hj as [Hr Hq].
      rewrite Hm1a in Ei by auto. pose proof (@dense_array_covers _ _ J m n s D (jwf_jwf0 Hwf) Em HD r q Hr Hq) as C. pose proof (proj1 (Hran r q Hr Hq)). lia. }
  unfold mu. clear - Hb. assert (forall l, (forall x, In x l -> (x <= rows D)%nat) -> (maxl l <= rows D)%nat) as G.
  { induction l as [|x l IH]; intros HH; cbn [maxl fold_right]; [lia|]. fold (maxl l). assert (x <= rows D)%nat by (apply HH; left; reflexivity). assert (maxl l <= rows D)%nat by (apply IH; intros y Hy; apply HH; right; exact Hy). lia. }
  apply G. intros x Hx. apply in_map_iff in Hx. destruct Hx as (b & <- & Hb'). apply in_seq in Hb'. apply Hb. lia.
Qed.
Lemma dense_jvp_array f a fl ax r : dense_jvp f [a] fl ax = Some r -> exists D, dense_array (ljac a) = Some D.
Proof.
  intros E. unfold dense_jvp in E. match type of E with bind ?x _ = _ => destruct x as [[[y g] l]|] eqn:Ex; [|discriminate] end. clear E.
  unfold dense_elementwise_jvp, dense_joint_jvp, dense_split_jvp, dense_jacobian in Ex. cbn [map sequence] in Ex.
  destruct (dense_array (ljac a)) as [D|]; [eauto|]. cbn [bind] in Ex. destruct (axes_nil ax); [destruct (negb _); discriminate|]. destruct (has JOIN_JVP fl); discriminate.
Qed.
Lemma reduction_tight n th f a axes fl ax r : (0 < n)%nat -> awf n a -> weak (ljac a) = true -> NoDup (norm_axes (ndim (lx a)) axes) -> (forall d, In d (norm_axes (ndim (lx a)) axes) -> (d < ndim (lx a))%nat) ->
  sparse_reduction_jvp f a axes th fl ax = Some r -> tj th (snd (fst r)).
Proof.
  intros Hn Hwf Hw Hnd Hlt E. unfold sparse_reduction_jvp in E. unfold weak in Hw. destruct (jidx (ljac a)) as [m|] eqn:Em; [|discriminate].
  destruct (jwf_sparse (proj1 Hwf) Em) as (Hd & _ & _). assert (ndim (jdata (ljac a)) - 1 = ndim (lx a))%nat as Hnj by (unfold ndim; rewrite Hd; cbn; lia). rewrite Hnj in E.
  destruct (get_jacobian_for_reduction (ljac a) (norm_axes (ndim (lx a)) axes)) as [[gt om]|] eqn:Eg; [|discriminate]. cbn [bind] in E.
  destruct (th <? Z.of_nat (rows om))%Z eqn:Eth.
  - apply Z.ltb_lt in Eth. destruct (@dense_jvp_array f a fl ax r E) as [D HD]. right.
    pose proof (@reduction_rows (ljac a) m n (sh (lx a)) _ gt om D (proj1 Hwf) Em Hnd Hlt Eg HD).
    assert (rows D <= rows (jdata (snd (fst r))))%nat; [|lia].
    apply (@dense_jvp_rows_ge n f [a] a D fl ax r Hn); auto; [discriminate| |left; reflexivity]. intros b [<-|[]]. exact Hwf.
  - match type of E with bind ?o _ = _ => destruct o as [[g' l']|]; [|discriminate] end. cbn [bind] in E.
    match type of E with bind ?o _ = _ => destruct o as [nm|]; [|discriminate] end. cbn [bind] in E. destruct (sheq _ _); [|discriminate]. injection E as <-. left. reflexivity.
Qed.
Lemma sparse_jvp1_tight n th f kwaxes a fl ax r : (0 < n)%nat -> awf n a -> tj th (ljac a) -> struct_at f kwaxes fl ax [lx a] 0 ->
  sparse_jvp1 f kwaxes a th fl ax = Some r -> tj th (snd (fst r)).
Proof.
  intros Hn Hwf Ht Hst H. unfold sparse_jvp1 in H. fold (axes_of kwaxes ax (lx a)) in H. unfold struct_at in Hst. cbn [nth] in Hst.
  destruct (weak (ljac a)) eqn:Hw; cbn [negb] in H.
  2:{ apply (@dense_jvp_tight n th f [a] fl ax r Hn); auto; [discriminate| |cbn; rewrite Hw; reflexivity]. intros b [<-|[]]. auto. }
  destruct (axes_of kwaxes ax (lx a)) as [|z zs] eqn:Eax.
  - apply (@diag_tight n th f [a] fl ax r Hn); auto; [discriminate|]. intros b [<-|[]]. auto.
  - destruct Hst as (Hnd & Hlt & _). rewrite <- Eax in *. destruct (has SUMMATION fl).
    + apply (@sum_tight n th a _ r Hn Hwf Hnd Hlt H).
    + apply (@reduction_tight n th f a _ fl ax r Hn Hwf Hw Hnd Hlt H).
Qed.

(* ---- __add__ ---- *)
Lemma jadd_jwf_tight n s th J K R : (0 < n)%nat -> jwf n s J -> jwf n s K -> jadd J K = Some R -> jwf n s R /\ (tj th J -> tj th K -> tj th R).
Proof.
  intros Hn HJ HK E. destruct (weak J && weak K) eqn:Ew.
  - apply andb_true_iff in Ew. destruct Ew as [WJ WK]. assert (W : weak R = true).
    { unfold weak in *. unfold jadd in E. destruct (jidx J) as [mj|]; [|discriminate]. destruct (jidx K) as [mk|]; [|discriminate].
      destruct (np_eq_all mk mj) as [b|]; [|discriminate]. cbn [bind] in E. destruct b.
      - destruct (bin radd _ _); [|discriminate]. cbn [bind] in E. match type of E with bind ?o _ = _ => destruct o; [|discriminate] end. cbn [bind] in E. injection E as <-. reflexivity.
      - injection E as <-. reflexivity. }
    split; [|intros _ _; left; exact W].
    unfold weak in WJ, WK. destruct (jidx J) as [mj|] eqn:EJ; [|discriminate]. destruct (jidx K) as [mk|] eqn:EK; [|discriminate].
    destruct (jwf_sparse HJ EJ) as (SJ & SMJ & RJ), (jwf_sparse HK EK) as (SK & SMK & RK).
    set (k := rows (jdata J)) in *. set (l := rows (jdata K)) in *.
    destruct (Nat.eq_dec k l) as [Hk|Hk].
    { destruct (jadd_sparse_sound HJ HK EJ EK E) as (_ & W2 & _); [left; exact Hk|exact W2]. }
    unfold jadd in E. rewrite EJ, EK in E. destruct (np_eq_all mk mj) as [b|] eqn:Eb; [|discriminate]. cbn [bind] in E.
    destruct b; [|injection E as <-; apply (concat_jac_spec HJ HK EJ EK)].
    assert (k = 1%nat \/ l = 1%nat) as Hkl.
    { unfold np_eq_all in Eb. rewrite SMJ, SMK in Eb. destruct (bshape2 (l :: s) (k :: s)) as [w|] eqn:Ebs; [|discriminate].
      destruct (bshape2_rows _ _ _ Ebs) as [?|[?|?]]; auto. congruence. }
    assert (JacFacts.same_idx k l s mj mk) as Hsame by (apply (@np_eq_all_same mk mj k l s SMK SMJ); auto).
    assert (forall m, bto (1%nat :: s) (m :: s)) as H1.
    { intros m. exists [], (m :: s). split; auto. constructor; auto. clear. induction s; constructor; auto. }
    assert (exists M, bshape2 (k :: s) (l :: s) = Some (M :: s) /\ (k = 1 \/ k = M)%nat /\ (l = 1 \/ l = M)%nat) as (M & EM & HMk & HMl).
    { destruct Hkl as [Hk1|Hl1].
      - exists l. rewrite Hk1, bshape2_bto_l by auto. auto.
      - exists k. rewrite Hl1, bshape2_bto_r by auto. auto. }
    unfold bin in E. rewrite SJ, SK, EM in E. cbn [bind] in E. rewrite SMJ, SMK, EM in E. cbn [bind] in E. injection E as <-.
    assert (forall x m p, inb p s -> bproj (m :: s) (x :: p) = (if Nat.eqb m 1 then 0%nat else x) :: p) as HB.
    { intros x m p Hp. unfold bproj. cbn [length]. rewrite (inb_length Hp), Nat.sub_diag. cbn [skipn map2]. f_equal.
      pose proof (bproj_same Hp) as Hq. unfold bproj in Hq. rewrite (inb_length Hp), Nat.sub_diag in Hq. exact Hq. }
    assert (forall r, (r < M)%nat -> ((if Nat.eqb k 1 then 0%nat else r) < k /\ (if Nat.eqb l 1 then 0%nat else r) < l)%nat) as Hlt.
    { intros r Hr. destruct (Nat.eqb_spec k 1), (Nat.eqb_spec l 1); lia. }
    exists M. cbn [jdata jidx sh]. split; auto. split; [reflexivity|]. intros r p Hr Hp. cbn [broadcast_to at_].
    rewrite SMJ. rewrite !HB by auto. destruct (Hlt r Hr) as [L1 L2]. split; [apply RJ; auto|]. intros Hneg.
    rewrite (proj2 (RJ _ p L1 Hp) Hneg). rewrite (Hsame _ _ p L1 L2 Hp) in Hneg. rewrite (proj2 (RK _ p L2 Hp) Hneg). ring.
  - assert (E' : (let* a := dense_array J in let* b := dense_array K in let* d := add_jacobians a b in Some (Jac d None)) = Some R).
    { unfold jadd in E. unfold weak in Ew. destruct (jidx J), (jidx K); auto. discriminate. }
    destruct (dense_array J) as [D|] eqn:ED; [|discriminate]. destruct (dense_array K) as [D'|] eqn:ED'; [|discriminate]. cbn [bind] in E'.
    destruct (dense_array_sound HJ Hn ED) as (kd & SD & LD & _). destruct (dense_array_sound HK Hn ED') as (ke & SE & LE & _).
    unfold add_jacobians in E'. destruct (@extend_jacobians_spec _ _ [D; D'] ltac:(congruence)) as [Hlen Hext].
    assert (H0 := Hext 0%nat (Nat.lt_0_succ _) D kd s SD). assert (H1 := Hext 1%nat (le_n _) D ke s SE).
    destruct (extend_jacobians [D; D']) as [|x [|y [|? ?]]]; cbn in Hlen; try lia.
    cbn [nth map maxl] in H0, H1. rewrite (rows_cons _ SD), (rows_cons _ SE) in *. destruct H0 as [S0 _], H1 as [S1 _].
    destruct (@bin_same _ radd x y _ S0 S1) as (c & Ec & Sc & _). rewrite Ec in E'. cbn [bind] in E'. injection E' as <-.
    set (M := maxl [kd; ke]) in *. assert (M = Nat.max kd ke) as HM by (unfold M; cbn; lia).
    split; [exists M; cbn; split; auto; lia|]. intros TJ TK. right. cbn [jdata]. rewrite (rows_cons _ Sc).
    assert (weak J = false \/ weak K = false) as [W|W] by (apply andb_false_iff; exact Ew).
    + rewrite (dense_jac_array _ W) in ED. injection ED as <-. destruct TJ as [C|C]; [congruence|]. rewrite (rows_cons _ SD) in C. lia.
    + rewrite (dense_jac_array _ W) in ED'. injection ED' as <-. destruct TK as [C|C]; [congruence|]. rewrite (rows_cons _ SE) in C. lia.
Qed.
Lemma obo_tight (F : fn A) (mg : mergefn) extra args n th fl ax r : (0 < n)%nat -> merge_ok mg (length args) (length extra) -> (forall a, In a args -> awf n a) -> (2 <= length args)%nat ->
  (forall a, (a < length args)%nat -> struct_at (merged (f_op F) mg (length args) extra) (f_kwaxes F) fl ax (xs_of args) a) -> (forall a, In a args -> jrow1 (ljac a)) ->
  (forall a, In a args -> tj th (ljac a)) -> one_by_one_jvp F mg extra th fl ax args = Some r -> tj th (snd (fst r)).
Proof.
  intros Hn Hmg Hwf H2 Hst Hrow Ht H. unfold one_by_one_jvp in H. set (xs := xs_of args) in *. set (so := sh (o_fwd (merged (f_op F) mg (length args) extra) xs)).
  assert (Hstep : forall i r, (i < length args)%nat -> sparse_jvp1 (obo_op F mg extra args i) (f_kwaxes F) (nth i args la0) th fl ax = Some r -> jwf n so (snd (fst r)) /\ tj th (snd (fst r))).
  { intros i ri Hi Hr. pose proof (@obo_step _ _ F mg extra args n Hn Hmg Hwf H2 th fl ax Hst Hrow i ri Hi Hr) as Hs. split; [destruct ri as [[y g] l]; apply Hs|].
    apply (@sparse_jvp1_tight n th (obo_op F mg extra args i) (f_kwaxes F) (nth i args la0) fl ax ri Hn); auto; [apply Hwf, nth_In, Hi|apply Ht, nth_In, Hi|].
    apply (@obo_struct _ _ F mg extra args n Hn Hmg H2 i (f_kwaxes F) fl ax Hi (Hst i Hi)). }
  assert (forall k i acc, (i + k = length args)%nat -> (1 <= i)%nat -> jwf n so (snd (fst acc)) -> tj th (snd (fst acc)) ->
       obo_loop F mg extra xs th fl ax i (skipn i args) (Some acc) = Some r -> tj th (snd (fst r))) as Hloop.
  { induction k as [|k IH]; intros i acc Hk Hi Hj Ha Hl.
    - rewrite skipn_all2 in Hl by lia. cbn in Hl. injection Hl as <-. exact Ha.
    - assert (skipn i args = nth i args la0 :: skipn (S i) args) as Es.
      { assert (forall (l : list (lapl A)) j, (j < length l)%nat -> skipn j l = nth j l la0 :: skipn (S j) l) as G.
        { induction l as [|a l IHl]; intros [|j] Hj'; cbn in *; try lia; auto. apply IHl. lia. }
        apply G. lia. }
      rewrite Es in Hl. cbn [obo_loop] in Hl. change (merged (f_op F) (new_merge mg (length xs - 1) i) 1 (extra ++ firstn i xs ++ skipn (i + 1) xs)) with (obo_op F mg extra args i) in Hl.
      destruct (sparse_jvp1 (obo_op F mg extra args i) (f_kwaxes F) (nth i args la0) th fl ax) as [ri|] eqn:Er; [|discriminate]. cbn [bind] in Hl.
      destruct (Hstep i ri ltac:(lia) Er) as [J1 J2]. destruct acc as [[y g] l], ri as [[y' g'] l']. cbn [fst snd] in *.
      destruct (jadd g g') as [g2|] eqn:Ej; [|discriminate]. cbn [bind] in Hl. destruct (bin radd l l') as [l2|]; [|discriminate]. cbn [bind] in Hl.
      destruct (@jadd_jwf_tight n so th g g' g2 Hn Hj J1 Ej) as [Q1 Q2]. apply (IH (S i) (y, g2, l2)); auto; lia. }
  assert (forall l : list (lapl A), (2 <= length l)%nat -> l = nth 0 l la0 :: skipn 1 l) as Es by (intros [|a l]; cbn; [lia|auto]).
  rewrite (Es args H2) in H. cbn [obo_loop] in H. change (merged (f_op F) (new_merge mg (length xs - 1) 0) 1 (extra ++ firstn 0 xs ++ skipn (0 + 1) xs)) with (obo_op F mg extra args 0) in H.
  destruct (sparse_jvp1 (obo_op F mg extra args 0) (f_kwaxes F) (nth 0 args la0) th fl ax) as [ri|] eqn:Er; [|discriminate]. cbn [bind] in H.
  destruct (Hstep 0%nat ri ltac:(lia) Er) as [J1 J2]. apply (Hloop (length args - 1)%nat 1%nat ri); auto; lia.
Qed.
Theorem jvp_fn_tight n (F : fn A) mg extra th fl ax args r : (0 < n)%nat -> args <> [] -> merge_ok mg (length args) (length extra) ->
  (forall a, In a args -> awf n a /\ jrow1 (ljac a)) -> (forall a, In a args -> tj th (ljac a)) ->
  (forall a, (a < length args)%nat -> struct_at (merged (f_op F) mg (length args) extra) (f_kwaxes F) fl ax (xs_of args) a) ->
  (has INDEXING fl = true -> match f_iop F with Some (g, ok, filled) => static_index g ok filled mg (length args) (length extra) | None => False end) ->
  jvp_fn F mg extra th fl ax args = Some r -> tj th (snd (fst r)).
Proof.
  intros Hn Hne Hmg Hargs Ht Hst Hix H. assert (Hboth : forall a, In a args -> awf n a /\ tj th (ljac a)) by (intros a Ha; split; [apply Hargs, Ha|apply Ht, Ha]).
  unfold jvp_fn in H. destruct (negb (any_weak args) || _) eqn:Ec.
  - unfold parallel_jvp in H. destruct (all_weak args) eqn:Hw; cbn [negb] in H; [|apply (@dense_jvp_tight n th _ args fl ax r Hn Hne Hboth Hw H)].
    destruct (has INDEXING fl) eqn:Hi.
    + specialize (Hix eq_refl). destruct (f_iop F) as [[[g ok] filled]|]; [|destruct Hix]. apply (@index_tight n th g ok filled mg args extra fl ax r Hn Hne Hboth Hix H).
    + unfold sparse_jvp in H. destruct args as [|a [|b args']]; [congruence| |].
      * refine (@sparse_jvp1_tight n th (merged (f_op F) mg (length [a]) extra) (f_kwaxes F) a fl ax r Hn _ _ (Hst 0%nat Nat.lt_0_1) H); apply Hboth; left; reflexivity.
      * rewrite Hw in H. cbn [negb] in H. destruct (axes_nil ax); [|discriminate]. apply (@diag_tight n th _ _ fl ax r Hn Hne Hboth H).
  - destruct (any_weak args) eqn:Haw; cbn [negb orb] in Ec; [|discriminate].
    assert (length args <> 1%nat) as Hl1.
    { intros E. rewrite E in Ec. destruct args as [|a [|]]; cbn in E; try lia. cbn in Haw, Ec. rewrite orb_false_r in Haw. rewrite Haw in Ec. cbn in Ec.
      rewrite orb_true_r in Ec. discriminate. }
    assert (2 <= length args)%nat as H2 by (destruct args as [|? [|]]; cbn in *; try congruence; lia).
    apply (@obo_tight F mg extra args n th fl ax r Hn Hmg (fun a Ha => proj1 (Hargs a Ha)) H2 Hst (fun a Ha => proj2 (Hargs a Ha)) Ht H).
Qed.
(* the wrapped function *)
Lemma wrap_tight n (R : rule A) c th xs v : (0 < n)%nat -> (forall u, In u xs -> vok n u) -> Forall (tight th) xs ->
  (forall a, (a < length (als xs))%nat -> struct_at (merged (f_op (r_fn R)) (merge_of (mask_of xs)) (length (als xs)) (exs xs)) (f_kwaxes (r_fn R)) (r_fl R) (r_axes R) (xs_of (als xs)) a) ->
  (has INDEXING (r_fl R) = true -> match f_iop (r_fn R) with Some (g, ok, filled) => static_index g ok filled (merge_of (mask_of xs)) (length (als xs)) (length (exs xs)) | None => False end) ->
  wrap_fl R c th xs = Some v -> tight th v.
Proof.
  intros Hn Hv Ht Hst Hix E. unfold wrap_fl in E.
  destruct (sequence (map (fun a => canon_axes (ndim (lx a)) (r_axes R)) (als xs))) as [axs|]; [|discriminate]. cbn [bind] in E.
  destruct (sequence (map (fun x => canon_axes (ndim x) (r_axes R)) (exs xs))) as [eaxs|]; [|discriminate]. cbn [bind] in E.
  destruct (als xs) as [|a0 la] eqn:Ea; [injection E as <-; exact I|]. rewrite <- Ea in *.
  assert (Hne : als xs <> []) by (rewrite Ea; discriminate).
  destruct (jvp_fn (r_fn R) (merge_of (mask_of xs)) (exs xs) th (r_fl R) (r_axes R) (als xs)) as [[[y g] l]|] eqn:Ej; [|discriminate]. cbn [bind] in E.
  destruct (jhj_trace _ _ _ _ _ _ _ _ _ _) as [h|]; [|discriminate]. cbn [bind] in E. destruct (bin radd l h) as [l2|]; [|discriminate]. cbn [bind] in E. injection E as <-.
  destruct (r_float R); [|exact I]. cbn [tight ljac].
  refine (@jvp_fn_tight n (r_fn R) (merge_of (mask_of xs)) (exs xs) th (r_fl R) (r_axes R) (als xs) _ Hn Hne (merge_args_ok xs) (@vok_als _ _ n xs Hv) _ Hst Hix Ej).
  intros a Ha. apply In_als in Ha. rewrite Forall_forall in Ht. apply (Ht _ Ha).
Qed.
End T.
