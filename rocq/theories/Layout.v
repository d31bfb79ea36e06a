(* Layout.v : shapes and sparsity patterns are computed from shapes and sparsity patterns only, never from values (first-order part). *)
From Verif Require Export DotGen.
Set Implicit Arguments.

(* ---- relations on results that may be errors ---- *)
Definition orel {X Y} (P : X -> Y -> Prop) (o : option X) (o' : option Y) : Prop :=
  match o, o' with Some x, Some y => P x y | None, None => True | _, _ => False end.
Lemma orel_bind {X Y X' Y'} (P : X -> X' -> Prop) (Q : Y -> Y' -> Prop) o o' f f' :
  orel P o o' -> (forall x x', P x x' -> orel Q (f x) (f' x')) -> orel Q (bind o f) (bind o' f').
Proof. destruct o, o'; cbn; intros H K; auto; contradiction. Qed.
Lemma orel_eq {X Y Y'} (Q : Y -> Y' -> Prop) (o o' : option X) f f' :
  o = o' -> (forall x, orel Q (f x) (f' x)) -> orel Q (bind o f) (bind o' f').
Proof. intros <- H. destruct o as [x|]; cbn; [apply H|exact I]. Qed.
Lemma orel_weaken {X Y} (P Q : X -> Y -> Prop) o o' : (forall x y, P x y -> Q x y) -> orel P o o' -> orel Q o o'.
Proof. destruct o, o'; cbn; auto. Qed.
Lemma R2_map_eq {X Y Z} (P : X -> Y -> Prop) (f : X -> Z) (g : Y -> Z) l m : Forall2 P l m -> (forall x y, P x y -> f x = g y) -> map f l = map g m.
Proof. intros H K. induction H; cbn; f_equal; auto. Qed.
Lemma R2_map {X Y X' Y'} (P : X -> Y -> Prop) (Q : X' -> Y' -> Prop) (f : X -> X') (g : Y -> Y') l m :
  Forall2 P l m -> (forall x y, P x y -> Q (f x) (g y)) -> Forall2 Q (map f l) (map g m).
Proof. intros H K. induction H; cbn; constructor; auto. Qed.
Lemma R2_len {X Y} (P : X -> Y -> Prop) l m : Forall2 P l m -> length l = length m.
Proof. induction 1; cbn; congruence. Qed.
Lemma R2_nth {X Y} (P : X -> Y -> Prop) l m d e : P d e -> Forall2 P l m -> forall k, P (nth k l d) (nth k m e).
Proof. intros Hd H. induction H; intros [|k]; cbn; auto. Qed.
Lemma R2_firstn {X Y} (P : X -> Y -> Prop) l m : Forall2 P l m -> forall k, Forall2 P (firstn k l) (firstn k m).
Proof. induction 1; intros [|k]; cbn; constructor; auto. Qed.
Lemma R2_skipn {X Y} (P : X -> Y -> Prop) l m : Forall2 P l m -> forall k, Forall2 P (skipn k l) (skipn k m).
Proof. induction 1; intros [|k]; cbn; auto; constructor; auto. Qed.
Lemma R2_app {X Y} (P : X -> Y -> Prop) l m l' m' : Forall2 P l m -> Forall2 P l' m' -> Forall2 P (l ++ l') (m ++ m').
Proof. induction 1; cbn; auto. Qed.
Lemma R2_map2 {X Y X' Y' Z Z'} (P : X -> X' -> Prop) (Q : Y -> Y' -> Prop) (T : Z -> Z' -> Prop) f g l l' m m' :
  Forall2 P l l' -> Forall2 Q m m' -> (forall x x' y y', P x x' -> Q y y' -> T (f x y) (g x' y')) -> Forall2 T (map2 f l m) (map2 g l' m').
Proof. intros H. revert m m'. induction H; intros m m' K HT; destruct K; cbn; constructor; auto. Qed.
Lemma R2_refl {X} (P : X -> X -> Prop) l : (forall x, P x x) -> Forall2 P l l.
Proof. intros H. induction l; constructor; auto. Qed.
Lemma R2_rev {X Y} (P : X -> Y -> Prop) l m : Forall2 P l m -> Forall2 P (rev l) (rev m).
Proof. induction 1; cbn; auto. apply R2_app; auto. Qed.
Lemma R2_combine {X Y Z} (P : X -> Y -> Prop) (s : list Z) l m : Forall2 P l m -> Forall2 (fun a b => fst a = fst b /\ P (snd a) (snd b)) (combine s l) (combine s m).
Proof. intros H. revert s. induction H; intros [|z s]; cbn; auto. Qed.
Lemma orel_sequence {X Y} (P : X -> Y -> Prop) l m : Forall2 (orel P) l m -> orel (Forall2 P) (sequence l) (sequence m).
Proof.
  induction 1 as [|o o' l m H HF IH]; cbn; auto. eapply orel_bind; [exact H|]. intros x x' Hx. eapply orel_bind; [exact IH|]. intros r r' Hr. cbn. auto.
Qed.

(* ---- equal shapes ---- *)
Definition sn {X} (a b : nd X) : Prop := sh a = sh b.
Lemma sn_refl X (a : nd X) : sn a a. Proof. reflexivity. Qed.
Lemma sn_rows X (a b : nd X) : sn a b -> rows a = rows b. Proof. unfold rows. intros ->. reflexivity. Qed.
Lemma sn_concat0 X (d : X) l m : Forall2 sn l m -> sn (concat0 d l) (concat0 d m).
Proof.
  intros H. unfold sn, concat0. cbn [sh]. rewrite (R2_map_eq (@rows X) (@rows X) H (@sn_rows X)).
  f_equal. inversion H; cbn [hd]; [reflexivity|]. congruence.
Qed.
Lemma sn_map_sh X (l m : list (nd X)) : Forall2 sn l m -> map (@sh X) l = map (@sh X) m.
Proof. intros H. apply (R2_map_eq _ _ H). auto. Qed.
Lemma sn_transpose X p (a b : nd X) : sn a b -> sn (transpose p a) (transpose p b).
Proof. unfold sn. intros H. cbn. rewrite H. reflexivity. Qed.

Section Layout.
Context {A : Type} {RA : CRing A}.
Open Scope cr_scope.

(* the same Jacobian up to the stored numbers: same shape, same index tensor *)
Definition sj (J K : jac A) : Prop := sh (jdata J) = sh (jdata K) /\ jidx J = jidx K.
(* relation: same layout (shapes and index tensors) of two values *)
Definition sl (a b : lapl A) : Prop := sn (lx a) (lx b) /\ sj (ljac a) (ljac b) /\ sn (llap a) (llap b).
(* relation: same layout of two results *)
Definition sres (r r' : result A) : Prop := let '(y, g, l) := r in let '(y', g', l') := r' in sn y y' /\ sj g g' /\ sn l l'.
Ltac jd J := destruct J as [[?s ?f] ?m].

Lemma sj_mask J K : sj J K -> mask J = mask K.
Proof. intros [H1 H2]. unfold mask. rewrite H1, H2. reflexivity. Qed.
Lemma sj_weak J K : sj J K -> weak J = weak K.
Proof. intros [H1 H2]. unfold weak. rewrite H2. reflexivity. Qed.
Lemma sj_rows J K : sj J K -> rows (jdata J) = rows (jdata K).
Proof. intros [H1 H2]. apply sn_rows. exact H1. Qed.
Lemma materialize_layout J K st m num : sj J K -> orel sn (materialize_for_idx J st m num) (materialize_for_idx K st m num).
Proof.
  intros [H1 H2]. destruct J as [[s f] i], K as [[s' f'] i']. cbn in H1, H2. subst s' i'. unfold materialize_for_idx, bexc. cbn [jdata sh].
  destruct (bshape2 _ _) as [post|]; cbn [bind]; [|exact I]. destruct (if st then compact _ else _) as [i3 c]. cbn. reflexivity.
Qed.
Lemma get_index_mask_layout J K o : sj J K -> get_index_mask J o = get_index_mask K o.
Proof. intros H. unfold get_index_mask. rewrite (sj_mask H). reflexivity. Qed.
Lemma data_shape_layout J K : sj J K -> data_shape J = data_shape K.
Proof. intros [H1 _]. unfold data_shape. rewrite H1. reflexivity. Qed.
Lemma construct_layout J K o : sj J K -> orel sn (construct_jac_for_idx J o) (construct_jac_for_idx K o).
Proof.
  intros H. unfold construct_jac_for_idx. destruct (Nat.eqb (rows o) 0); [cbn; unfold sn; cbn; rewrite (data_shape_layout H); reflexivity|].
  pose proof H as [H1 H2]. rewrite H2. destruct (jidx K).
  - eapply orel_eq; [apply get_index_mask_layout; exact H|]. intros x. apply materialize_layout. exact H.
  - cbn. unfold sn, fancy0. cbn. rewrite H1. reflexivity.
Qed.
Lemma max_n_layout J K : sj J K -> max_n J = max_n K.
Proof. intros H. unfold max_n. destruct H as [H1 H2]. rewrite H2. unfold rows. rewrite H1. reflexivity. Qed.
Lemma dense_array_layout J K : sj J K -> orel sn (dense_array J) (dense_array K).
Proof.
  intros H. unfold dense_array. pose proof H as [H1 H2]. rewrite H2. destruct (jidx K); [|exact H1].
  eapply orel_eq; [apply max_n_layout; exact H|]. intros x. rewrite (data_shape_layout H). apply construct_layout. exact H.
Qed.
Lemma construct_for_layout J K o : sj J K -> orel sn (construct_jac_for J o) (construct_jac_for K o).
Proof. intros H. unfold construct_jac_for. destruct o; [apply construct_layout|apply dense_array_layout]; exact H. Qed.
Lemma sj_dense (a b : nd A) : sn a b -> sj (Jac a None) (Jac b None).
Proof. intros H. split; [exact H|reflexivity]. Qed.
Lemma as_dense_layout J K : sj J K -> orel sj (as_dense J) (as_dense K).
Proof. intros H. eapply orel_bind; [apply dense_array_layout; exact H|]. intros x y Hx. apply sj_dense. exact Hx. Qed.
Lemma extend_layout (l m : list (nd A)) : Forall2 sn l m -> Forall2 sn (extend_jacobians l) (extend_jacobians m).
Proof.
  intros H. assert (E : map rows l = map rows m) by (apply (R2_map_eq _ _ H); apply sn_rows).
  assert (G : Forall2 sn (let mx := maxl (map rows l) in if forallb (fun a => Nat.eqb (rows a) mx) l then l else map (extend1 mx) l)
                         (let mx := maxl (map rows m) in if forallb (fun a => Nat.eqb (rows a) mx) m then m else map (extend1 mx) m)).
  { cbv zeta. rewrite E. generalize (maxl (map rows m)). intros mx. assert (EF : forallb (fun a => Nat.eqb (rows a) mx) l = forallb (fun a => Nat.eqb (rows a) mx) m).
    { clear E. induction H as [|u w l m Hx HF IH]; cbn; auto. rewrite (sn_rows Hx), IH. reflexivity. }
    rewrite EF. destruct (forallb _ m); [exact H|]. apply (R2_map _ _ _ H). intros x y Hx. unfold extend1. rewrite (sn_rows Hx). destruct (rows y <? mx)%nat; [|exact Hx].
    apply sn_concat0. constructor; [exact Hx|]. constructor; [|constructor]. unfold sn. cbn. rewrite Hx. reflexivity. }
  destruct H as [|x y l m Hx HF]; [exact G|]. destruct HF as [|x' y' l m Hx' HF]; [|exact G]. cbn. auto.
Qed.
Lemma bin_layout g (a a' b b' : nd A) : sn a a' -> sn b b' -> orel sn (bin g a b) (bin g a' b').
Proof. unfold sn. intros H1 H2. unfold bin. rewrite H1, H2. destruct (bshape2 _ _); cbn; reflexivity. Qed.
Lemma add_jac_layout (a a' b b' : nd A) : sn a a' -> sn b b' -> orel sn (add_jacobians a b) (add_jacobians a' b').
Proof.
  intros H1 H2. unfold add_jacobians. assert (H : Forall2 sn (extend_jacobians [a; b]) (extend_jacobians [a'; b'])) by (apply extend_layout; auto).
  destruct H as [|x y l m Hx HF]; [exact I|]. destruct HF as [|x' y' l m Hx' HF]; [exact I|]. destruct HF; [|exact I]. apply bin_layout; auto.
Qed.
Lemma jadd_layout J J' K K' : sj J J' -> sj K K' -> orel sj (jadd J K) (jadd J' K').
Proof.
  intros H1 H2. unfold jadd. assert (HD : orel sj (let* a := dense_array J in let* b := dense_array K in let* d := add_jacobians a b in Some (Jac d None))
      (let* a := dense_array J' in let* b := dense_array K' in let* d := add_jacobians a b in Some (Jac d None))).
  { eapply orel_bind; [apply dense_array_layout; exact H1|]. intros a a' Ha. eapply orel_bind; [apply dense_array_layout; exact H2|]. intros b b' Hb.
    eapply orel_bind; [apply add_jac_layout; [exact Ha|exact Hb]|]. intros d d' Hd. apply sj_dense. exact Hd. }
  pose proof H1 as [E1 F1]. pose proof H2 as [E2 F2]. rewrite F1, F2. destruct (jidx J') as [mj|]; [|exact HD]. destruct (jidx K') as [mk|]; [|exact HD].
  apply orel_eq; [reflexivity|]. intros e. destruct e.
  - eapply orel_bind; [apply bin_layout; [exact E1|exact E2]|]. intros d d' Hd. apply orel_eq; [reflexivity|]. intros s. cbn. split; [exact Hd|reflexivity].
  - cbn. split; [|reflexivity]. apply (@sn_concat0 A 0 [jdata J; jdata K] [jdata J'; jdata K']). repeat constructor; auto.
Qed.

(* ---- primitives whose output shape depends on the input shapes only ---- *)
Definition so (f f' : op A) : Prop := forall xs xs', Forall2 sn xs xs' -> sn (o_fwd f xs) (o_fwd f' xs').
(* a merge function only moves its arguments around (it cannot inspect them) *)
Definition natural (mg : mergefn) : Prop := forall X Y (P : X -> Y -> Prop) l l' e e', Forall2 P l l' -> Forall2 P e e' -> Forall2 P (mg X l e) (mg Y l' e').
Lemma natural_merge_of m : natural (merge_of m).
Proof.
  intros X Y P l l' e e' H1. unfold merge_of. revert l l' e e' H1. induction m as [|b m IH]; intros l l' e e' H1 H2; cbn; [constructor|].
  destruct b; [destruct H1|destruct H2]; constructor; auto.
Qed.
Lemma natural_new_merge mg k i : natural mg -> natural (new_merge mg k i).
Proof.
  intros N X Y P l l' e e' H1 H2. unfold new_merge. apply N.
  - apply R2_app; [|apply R2_app].
    + apply R2_firstn. destruct k; cbn; auto. rewrite (R2_len H2). apply R2_skipn. exact H2.
    + apply R2_firstn. exact H1.
    + apply R2_skipn. destruct k; cbn; auto. rewrite (R2_len H2). apply R2_skipn. exact H2.
  - destruct k; [constructor|]. unfold py_upto_neg. rewrite (R2_len H2). apply R2_firstn. exact H2.
Qed.
Lemma merged_layout f f' mg n ex ex' : natural mg -> so f f' -> Forall2 sn ex ex' -> so (merged f mg n ex) (merged f' mg n ex').
Proof. intros N H He xs xs' Hx. cbn. apply H. apply N; auto. Qed.
Lemma jvp1_layout f f' xs xs' ts ts' : so f f' -> Forall2 sn xs xs' -> sn (jvp1 f xs ts) (jvp1 f' xs' ts').
Proof. intros H Hx. unfold sn. cbn. apply H. exact Hx. Qed.
Lemma vmap_jvp_layout f f' xs xs' K ts ts' : so f f' -> Forall2 sn xs xs' -> sn (vmap_jvp f xs K ts) (vmap_jvp f' xs' K ts').
Proof. intros H Hx. unfold sn. cbn. f_equal. apply H. exact Hx. Qed.
Lemma butlast_layout (a b : nd A) : sn a b -> sn (butlast a) (butlast b).
Proof. unfold sn, butlast, rows. cbn. intros ->. reflexivity. Qed.
Lemma lastrow_layout (a b : nd A) : sn a b -> sn (lastrow a) (lastrow b).
Proof. unfold sn. cbn. intros ->. reflexivity. Qed.
Lemma expand0_layout X (a b : nd X) : sn a b -> sn (expand0 a) (expand0 b).
Proof. unfold sn. cbn. intros ->. reflexivity. Qed.

(* ---- lists of arguments ---- *)
Lemma xs_layout args args' : Forall2 sl args args' -> Forall2 sn (xs_of args) (xs_of args').
Proof. intros H. apply (R2_map _ _ _ H). intros x y Hx. apply Hx. Qed.
Lemma laps_layout args args' : Forall2 sl args args' -> Forall2 sn (laps_of args) (laps_of args').
Proof. intros H. apply (R2_map _ _ _ H). intros x y Hx. apply Hx. Qed.
Lemma all_weak_layout args args' : Forall2 sl args args' -> all_weak args = all_weak args'.
Proof. intros H. unfold all_weak. induction H as [|x y l m Hx HF IH]; cbn; auto. rewrite (sj_weak (proj1 (proj2 Hx))), IH. reflexivity. Qed.
Lemma any_weak_layout args args' : Forall2 sl args args' -> any_weak args = any_weak args'.
Proof. intros H. unfold any_weak. induction H as [|x y l m Hx HF IH]; cbn; auto. rewrite (sj_weak (proj1 (proj2 Hx))), IH. reflexivity. Qed.
Lemma masks_layout args args' : Forall2 sl args args' -> map (fun a => mask (ljac a)) args = map (fun a => mask (ljac a)) args'.
Proof. intros H. apply (R2_map_eq _ _ H). intros x y Hx. apply sj_mask. apply Hx. Qed.
Lemma jrows_layout args args' : Forall2 sl args args' -> map (fun a => rows (jdata (ljac a))) args = map (fun a => rows (jdata (ljac a))) args'.
Proof. intros H. apply (R2_map_eq _ _ H). intros x y Hx. apply sj_rows. apply Hx. Qed.
Lemma dense_jac_layout args args' : Forall2 sl args args' -> orel (Forall2 sn) (dense_jacobian args) (dense_jacobian args').
Proof. intros H. apply orel_sequence. apply (R2_map _ _ _ H). intros x y Hx. apply dense_array_layout. apply Hx. Qed.

(* relation: same shapes *)
Definition s3 (r r' : nd A * nd A * nd A) : Prop := let '(y, g, l) := r in let '(y', g', l') := r' in sn y y' /\ sn g g' /\ sn l l'.
Lemma dense_joint_layout f f' args args' : so f f' -> Forall2 sl args args' -> orel s3 (dense_joint_jvp f args) (dense_joint_jvp f' args').
Proof.
  intros Hf H. unfold dense_joint_jvp. eapply orel_bind; [apply dense_jac_layout; exact H|]. intros dj dj' Hd. cbn [orel s3].
  assert (HT : Forall2 sn (map2 (fun j l => concat0 0 [j; expand0 l]) (extend_jacobians dj) (laps_of args)) (map2 (fun j l => concat0 0 [j; expand0 l]) (extend_jacobians dj') (laps_of args'))).
  { apply (@R2_map2 _ _ _ _ _ _ sn sn sn _ _ _ _ _ _ (extend_layout Hd) (laps_layout H)). intros x x' y y' Hx Hy. apply sn_concat0. constructor; [exact Hx|]. constructor; [apply expand0_layout; exact Hy|constructor]. }
  rewrite (R2_map_eq (@rows A) (@rows A) HT (@sn_rows A)). set (K := maxl _).
  split; [apply Hf; apply xs_layout; exact H|]. split; [apply butlast_layout|apply lastrow_layout]; apply vmap_jvp_layout; auto using xs_layout.
Qed.
Lemma dense_split_layout f f' args args' : so f f' -> Forall2 sl args args' -> orel s3 (dense_split_jvp f args) (dense_split_jvp f' args').
Proof.
  intros Hf H. unfold dense_split_jvp. eapply orel_bind; [apply dense_jac_layout; exact H|]. intros dj dj' Hd. cbn [orel s3].
  rewrite (R2_map_eq (@rows A) (@rows A) (extend_layout Hd) (@sn_rows A)).
  split; [apply Hf; apply xs_layout; exact H|]. split; [apply vmap_jvp_layout|apply jvp1_layout]; auto using xs_layout.
Qed.
Lemma so1 f f' a a' : so f f' -> sl a a' -> sn (o_fwd f [lx a]) (o_fwd f' [lx a']).
Proof. intros Hf H. apply Hf. constructor; [apply H|constructor]. Qed.
Lemma sheq_layout X Y (a a' : nd X) (b b' : nd Y) : sn a a' -> sn b b' -> sheq (sh a) (sh b) = sheq (sh a') (sh b').
Proof. unfold sn. intros -> ->. reflexivity. Qed.
Lemma dense_elementwise_layout f f' a a' : so f f' -> sl a a' -> orel s3 (dense_elementwise_jvp f a) (dense_elementwise_jvp f' a').
Proof.
  intros Hf H. pose proof (so1 Hf H) as Hy. pose proof H as (H1 & H2 & H3). unfold dense_elementwise_jvp. rewrite (sheq_layout Hy H1).
  destruct (negb _); [apply dense_split_layout; auto|]. eapply orel_bind; [apply dense_array_layout; exact H2|]. intros d d' Hd.
  eapply orel_bind; [apply bin_layout; [|exact Hd]|].
  - unfold sn. cbn. exact H1.
  - intros g g' Hg. eapply orel_bind; [apply bin_layout; [|exact H3]|].
    + unfold sn. cbn. exact H1.
    + intros l l' Hl. cbn. auto.
Qed.
Lemma dense_jvp_layout f f' args args' fl ax : so f f' -> Forall2 sl args args' -> orel sres (dense_jvp f args fl ax) (dense_jvp f' args' fl ax).
Proof.
  intros Hf H. unfold dense_jvp. eapply (@orel_bind _ _ _ _ s3).
  - assert (HH : orel s3 (if has JOIN_JVP fl then dense_joint_jvp f args else dense_split_jvp f args) (if has JOIN_JVP fl then dense_joint_jvp f' args' else dense_split_jvp f' args')).
    { destruct (has JOIN_JVP fl); [apply dense_joint_layout|apply dense_split_layout]; auto. }
    destruct H as [|x y l m Hx HF]; [exact HH|]. destruct HF as [|x' y' l m Hx' HF]; [|exact HH]. destruct (axes_nil ax); [apply dense_elementwise_layout; auto|exact HH].
  - intros [[y g] l] [[y' g'] l'] (H1 & H2 & H3). cbn. auto using sj_dense.
Qed.
Lemma bmask_layout m (j j' : nd A) : sn j j' -> broadcast_mask_to_jacobian m j = broadcast_mask_to_jacobian m j'.
Proof. unfold sn. intros H. unfold broadcast_mask_to_jacobian, rows. rewrite H. reflexivity. Qed.
Lemma sl_F2_nil : Forall2 sl [] []. Proof. constructor. Qed.
Lemma sparse_diag_layout f f' args args' fl ax : so f f' -> Forall2 sl args args' -> orel sres (sparse_diag_jvp f args fl ax) (sparse_diag_jvp f' args' fl ax).
Proof.
  intros Hf H. unfold sparse_diag_jvp. rewrite (all_weak_layout H). destruct (negb _); [apply dense_jvp_layout; auto|].
  assert (Hy : sn (o_fwd f (xs_of args)) (o_fwd f' (xs_of args'))) by (apply Hf; apply xs_layout; exact H).
  rewrite (jrows_layout H). set (K := list_sum _).
  eapply (@orel_bind _ _ _ _ (fun t t' : nd A * nd A => sn (fst t) (fst t') /\ sn (snd t) (snd t'))).
  - assert (G : forall ts ts', orel (fun t t' : nd A * nd A => sn (fst t) (fst t') /\ sn (snd t) (snd t'))
        (Some (butlast (vmap_jvp f (xs_of args) (K + 1) ts), lastrow (vmap_jvp f (xs_of args) (K + 1) ts)))
        (Some (butlast (vmap_jvp f' (xs_of args') (K + 1) ts'), lastrow (vmap_jvp f' (xs_of args') (K + 1) ts')))).
    { intros ts ts'. cbn [orel fst snd]. split; [apply butlast_layout|apply lastrow_layout]; apply vmap_jvp_layout; auto using xs_layout. }
    destruct H as [|a a' l m Hx HF]; [apply G|]. destruct HF as [|x' y' l m Hx' HF]; [|apply G].
    pose proof Hx as (H1 & H2 & H3). rewrite (sheq_layout Hy H1). destruct (sheq _ _); [|apply G].
    eapply orel_bind; [apply bin_layout; [|exact (proj1 H2)]|].
    + unfold sn. cbn. exact H1.
    + intros g g' Hg. eapply orel_bind; [apply bin_layout; [|exact H3]|].
      * unfold sn. cbn. exact H1.
      * intros l l' Hl. cbn. auto.
  - intros [g l] [g' l'] [Hg Hl]. cbn [fst snd] in Hg, Hl.
    eapply (@orel_bind _ _ _ _ (fun t t' : nd Z * nd A => fst t = fst t' /\ sn (snd t) (snd t'))).
    + assert (G : orel (fun t t' : nd Z * nd A => fst t = fst t' /\ sn (snd t) (snd t'))
          (let* ms := bexcs (map (fun a => mask (ljac a)) args) in
           let (u, inv) := unique_rows (concat0 (-1)%Z ms) in
           Some (u, segment_sum K (tl (sh g)) g (fun r => Z.of_nat (inv r)) (rows u)))
          (let* ms := bexcs (map (fun a => mask (ljac a)) args') in
           let (u, inv) := unique_rows (concat0 (-1)%Z ms) in
           Some (u, segment_sum K (tl (sh g')) g' (fun r => Z.of_nat (inv r)) (rows u)))).
      { rewrite (masks_layout H). apply orel_eq; [reflexivity|]. intros ms. destruct (unique_rows _) as [u inv]. cbn. split; [reflexivity|]. unfold sn. cbn. rewrite Hg. reflexivity. }
      destruct H as [|a a' l0 m Hx HF]; [exact G|]. destruct HF as [|x' y' l0 m Hx' HF]; [|exact G]. cbn. split; [|exact Hg]. apply sj_mask. apply Hx.
    + intros [rm g2] [rm' g2'] [E Hg2]. cbn [fst snd] in E, Hg2. subst rm'. eapply orel_eq; [apply bmask_layout; exact Hg2|]. intros rm2.
      rewrite (sheq_layout Hg2 (@sn_refl _ rm2)). destruct (sheq _ _); cbn; auto. split; [exact Hy|]. split; [|exact Hl]. split; [exact Hg2|reflexivity].
Qed.
Lemma iop_layout (g : iop) : so (iop_op g) (iop_op g).
Proof. intros xs xs' H. reflexivity. Qed.
Lemma pad_layout X (d : X) n (a b : nd X) : sn a b -> sn (pad_rows d n a) (pad_rows d n b).
Proof. intros H. apply sn_concat0. constructor; [exact H|]. constructor; [|constructor]. unfold sn. cbn. rewrite (sn_rows H), H. reflexivity. Qed.
Lemma sparse_index_layout g ok filled mg args args' ex ex' fl ax : natural mg -> Forall2 sl args args' -> Forall2 sn ex ex' ->
  orel sres (sparse_index_jvp g ok filled mg args ex fl ax) (sparse_index_jvp g ok filled mg args' ex' fl ax).
Proof.
  intros N H He. unfold sparse_index_jvp. rewrite (all_weak_layout H).
  assert (Hf : so (merged (iop_op g) mg (length args) ex) (merged (iop_op g) mg (length args') ex')) by (rewrite (R2_len H); apply merged_layout; auto using iop_layout).
  destruct (negb (all_weak args')); [apply dense_jvp_layout; auto|]. cbv zeta.
  set (ee := existsb _ (allix (i_shape g))). set (ee' := existsb _ (allix (i_shape g))). assert (Eee : ee = ee') by (unfold ee, ee'; rewrite (R2_len H), (R2_len He); reflexivity). rewrite Eee. clearbody ee'. clear ee Eee.
  destruct (negb ok || _); [apply dense_jvp_layout; auto|].
  rewrite (masks_layout H). set (masks := broadcast_dim _ _). set (K := maxl _).
  assert (EE : map (fun e : nd A => Nd (sh e) (fun _ => (-1)%Z)) ex = map (fun e : nd A => Nd (sh e) (fun _ => (-1)%Z)) ex').
  { apply (R2_map_eq _ _ He). intros x y ->. reflexivity. }
  rewrite EE. set (m := stack K _ _).
  set (tn := map2 _ _ _). set (tn' := map2 _ _ (laps_of args')).
  assert (HV : sn (vmap_jvp (merged (iop_op g) mg (length args) ex) (xs_of args) (K + 1) tn) (vmap_jvp (merged (iop_op g) mg (length args') ex') (xs_of args') (K + 1) tn')) by (apply vmap_jvp_layout; auto using xs_layout).
  rewrite (sheq_layout (butlast_layout HV) (@sn_refl _ m)). destruct (sheq _ _); cbn [orel]; auto. split; [apply Hf; apply xs_layout; exact H|]. split; [|apply lastrow_layout; exact HV].
  split; [|reflexivity]. apply butlast_layout. exact HV.
Qed.
Lemma np_sum_layout axes (a b : nd A) : sn a b -> sn (np_sum axes a) (np_sum axes b).
Proof. unfold sn. intros H. cbn. unfold ndim. rewrite H. reflexivity. Qed.
Lemma sparse_sum_layout a a' axes th : sl a a' -> orel sres (sparse_sum_jvp a axes th) (sparse_sum_jvp a' axes th).
Proof.
  intros (H1 & [H2 H3] & H4). destruct a as [[sx fx] [[sd fd] m] [s1 f1]], a' as [[sx' fx'] [[sd' fd'] m'] [s1' f1']]. unfold sn in *. cbn in H1, H2, H3, H4. subst sx' sd' m' s1'.
  unfold sparse_sum_jvp. cbn [ljac jidx jdata lx llap]. destruct m as [m|]; [|exact I]. cbn [np_sum sh ndim]. change (ndim (Nd sd fd)) with (ndim (Nd sd fd')).
  change (ndim (Nd sx fx)) with (ndim (Nd sx fx')). destruct (Nat.eqb _ 0); [exact I|]. destruct (compact _) as [ic rep]. cbn. repeat split; reflexivity.
Qed.
Lemma red_layout J K axes : sj J K -> orel (fun t t' : nd A * nd Z => sn (fst t) (fst t') /\ snd t = snd t') (get_jacobian_for_reduction J axes) (get_jacobian_for_reduction K axes).
Proof.
  intros H. unfold get_jacobian_for_reduction. rewrite (sj_mask H). eapply orel_eq; [apply get_index_mask_layout; exact H|]. intros im.
  eapply orel_bind; [apply materialize_layout; exact H|]. intros x y Hx. cbn. auto.
Qed.
Lemma bexc_layout X Y (a a' : nd X) (b b' : nd Y) : sn a a' -> sn b b' -> orel (fun t t' : nd X * nd Y => sn (fst t) (fst t') /\ sn (snd t) (snd t')) (bexc a b) (bexc a' b').
Proof. destruct a, a', b, b'. unfold sn. cbn. intros E1 E2. subst. unfold bexc. cbn [sh]. destruct (bshape2 _ _); cbn; auto. Qed.
Lemma sparse_red_layout f f' a a' axes th fl ax : so f f' -> sl a a' -> orel sres (sparse_reduction_jvp f a axes th fl ax) (sparse_reduction_jvp f' a' axes th fl ax).
Proof.
  intros Hf H. pose proof H as (H1 & H2 & H3). unfold sparse_reduction_jvp. unfold ndim at 1 2. rewrite (proj1 H2).
  eapply orel_bind; [apply red_layout; exact H2|]. intros [gt om] [gt' om'] [Hg E]. cbn [fst snd] in Hg, E. subst om'.
  destruct (th <? _)%Z; [apply dense_jvp_layout; auto|]. eapply orel_bind; [apply bexc_layout; [exact Hg|apply expand0_layout; exact H3]|].
  intros [g l] [g' l'] [Hg' Hl']. cbn [fst snd] in Hg', Hl'.
  assert (HT : sn (concat0 0 [g; l]) (concat0 0 [g'; l'])) by (apply sn_concat0; auto).
  assert (HV : sn (vmap_jvp f [lx a] (rows (concat0 0 [g; l])) [concat0 0 [g; l]]) (vmap_jvp f' [lx a'] (rows (concat0 0 [g'; l'])) [concat0 0 [g'; l']])).
  { rewrite (sn_rows HT). apply vmap_jvp_layout; auto. }
  eapply orel_eq; [apply bmask_layout; apply butlast_layout; exact HV|]. intros nm. rewrite (sheq_layout (butlast_layout HV) (@sn_refl _ nm)). destruct (sheq _ _); cbn [orel]; auto.
  split; [apply so1; auto|]. split; [|apply lastrow_layout; exact HV]. split; [|reflexivity]. apply butlast_layout. exact HV.
Qed.
Lemma sparse1_layout f f' kw a a' th fl ax : so f f' -> sl a a' -> orel sres (sparse_jvp1 f kw a th fl ax) (sparse_jvp1 f' kw a' th fl ax).
Proof.
  intros Hf H. pose proof H as (H1 & H2 & H3). assert (HL : Forall2 sl [a] [a']) by auto. unfold sparse_jvp1. rewrite (sj_weak H2). destruct (negb _); [apply dense_jvp_layout; auto|].
  unfold ndim. rewrite H1. set (axes := match ax with Some _ => _ | None => _ end). clearbody axes. destruct axes; [apply sparse_diag_layout; auto|].
  destruct (has SUMMATION fl); [apply sparse_sum_layout|apply sparse_red_layout]; auto.
Qed.
Lemma sparse_layout f f' kw args args' th fl ax : so f f' -> Forall2 sl args args' -> orel sres (sparse_jvp f kw args th fl ax) (sparse_jvp f' kw args' th fl ax).
Proof.
  intros Hf H. unfold sparse_jvp.
  assert (G : orel sres (if negb (all_weak args) then dense_jvp f args fl ax else if axes_nil ax then sparse_diag_jvp f args fl ax else None)
      (if negb (all_weak args') then dense_jvp f' args' fl ax else if axes_nil ax then sparse_diag_jvp f' args' fl ax else None)).
  { rewrite (all_weak_layout H). destruct (negb _); [apply dense_jvp_layout; auto|]. destruct (axes_nil ax); [apply sparse_diag_layout; auto|exact I]. }
  destruct H as [|x y l m Hx HF]; [exact G|]. destruct HF; [apply sparse1_layout; auto|exact G].
Qed.
Lemma parallel_layout F mg args args' ex ex' th fl ax : natural mg -> so (f_op F) (f_op F) -> Forall2 sl args args' -> Forall2 sn ex ex' ->
  orel sres (parallel_jvp F mg ex th fl ax args) (parallel_jvp F mg ex' th fl ax args').
Proof.
  intros N Hf H He. unfold parallel_jvp. rewrite (all_weak_layout H).
  assert (Hm : so (merged (f_op F) mg (length args) ex) (merged (f_op F) mg (length args') ex')) by (rewrite (R2_len H); apply merged_layout; auto).
  destruct (negb _); [apply dense_jvp_layout; auto|]. destruct (has INDEXING fl).
  - destruct (f_iop F) as [[[g ok] filled]|]; [apply sparse_index_layout; auto|apply dense_jvp_layout; auto].
  - apply sparse_layout; auto.
Qed.
Lemma obo_layout F mg ex ex' xs xs' th fl ax : natural mg -> so (f_op F) (f_op F) -> Forall2 sn ex ex' -> Forall2 sn xs xs' ->
  forall rest rest', Forall2 sl rest rest' -> forall i acc acc', orel sres acc acc' -> orel sres (obo_loop F mg ex xs th fl ax i rest acc) (obo_loop F mg ex' xs' th fl ax i rest' acc').
Proof.
  intros N Hf He Hx rest rest' H. induction H as [|a a' rest rest' Ha HF IH]; intros i acc acc' Hacc; [exact Hacc|]. cbn [obo_loop].
  assert (Hm : so (merged (f_op F) (new_merge mg (length xs - 1) i) 1 (ex ++ firstn i xs ++ skipn (i + 1) xs)) (merged (f_op F) (new_merge mg (length xs' - 1) i) 1 (ex' ++ firstn i xs' ++ skipn (i + 1) xs'))).
  { rewrite (R2_len Hx). apply merged_layout; auto using natural_new_merge. apply R2_app; [exact He|]. apply R2_app; [apply R2_firstn|apply R2_skipn]; exact Hx. }
  eapply orel_bind; [apply sparse1_layout; [exact Hm|exact Ha]|]. intros r r' Hr.
  assert (HA : orel sres match acc with None => Some r | Some (y, g, l) => let '(_, g', l') := r in let* g2 := jadd g g' in let* l2 := bin radd l l' in Some (y, g2, l2) end
      match acc' with None => Some r' | Some (y, g, l) => let '(_, g', l') := r' in let* g2 := jadd g g' in let* l2 := bin radd l l' in Some (y, g2, l2) end).
  { destruct acc as [[[y g] l]|], acc' as [[[y' g'] l']|]; cbn in Hacc; try contradiction; [|exact Hr]. destruct r as [[ry rg] rl], r' as [[ry' rg'] rl']. cbn in Hr. destruct Hacc as (C1 & C2 & C3), Hr as (R1 & R2 & R3).
    eapply orel_bind; [apply jadd_layout; [exact C2|exact R2]|]. intros g2 g2' Hg. eapply orel_bind; [apply bin_layout; [exact C3|exact R3]|]. intros l2 l2' Hl. cbn. auto. }
  destruct (match acc with None => _ | Some _ => _ end) as [u|], (match acc' with None => _ | Some _ => _ end) as [u'|]; cbn in HA; try contradiction; [|exact I]. apply IH. exact HA.
Qed.
Theorem jvp_layout F mg args args' ex ex' th fl ax : natural mg -> so (f_op F) (f_op F) -> Forall2 sl args args' -> Forall2 sn ex ex' ->
  orel sres (jvp_fn F mg ex th fl ax args) (jvp_fn F mg ex' th fl ax args').
Proof.
  intros N Hf H He. unfold jvp_fn. rewrite (all_weak_layout H), (any_weak_layout H), (R2_len H). destruct (_ || _); [apply parallel_layout; auto|].
  apply obo_layout; auto using xs_layout. exact I.
Qed.
End Layout.
