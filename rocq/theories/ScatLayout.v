(* ScatLayout.v : shapes and sparsity patterns of scatter do not depend on values. *)
From Verif Require Export Layout2 ScatRule.
Set Implicit Arguments.

Section ScatLayout.
Context {A : Type} {RA : CRing A}.
Open Scope cr_scope.

Lemma sparse_scatter_layout f f' b dims ids (a a' : lapl A) th fl ax : so f f' -> sl a a' -> orel sres (sparse_scatter_jvp f b dims ids a th fl ax) (sparse_scatter_jvp f' b dims ids a' th fl ax).
Proof.
  intros Hf H. pose proof H as (H1 & H2 & H3). assert (HL : Forall2 sl [a] [a']) by auto. unfold sparse_scatter_jvp. destruct b.
  - destruct (has LINEAR fl); [|apply dense_jvp_layout; auto]. cbn [orel sres]. split; [apply so1; auto|auto].
  - destruct (negb dims); [apply dense_jvp_layout; auto|]. rewrite (proj2 H2). destruct (jidx (ljac a')) as [m|]; [|exact I].
    apply orel_eq; [apply max_n_layout; exact H2|]. intros mx. cbv zeta. destruct (th <? _)%Z; [apply dense_jvp_layout; auto|].
    apply orel_eq; [apply get_index_mask_layout; exact H2|]. intros im. eapply orel_bind; [apply materialize_layout; exact H2|]. intros gt gt' Hg.
    eapply orel_bind; [apply bexc_layout; [exact Hg|apply expand0_layout; exact H3]|]. intros [g l] [g' l'] [Hg' Hl']. cbn [fst snd] in Hg', Hl'.
    assert (HT : sn (concat0 0 [g; l]) (concat0 0 [g'; l'])) by (apply sn_concat0; auto).
    assert (HV : sn (vmap_jvp f [lx a] (rows (concat0 0 [g; l])) [concat0 0 [g; l]]) (vmap_jvp f' [lx a'] (rows (concat0 0 [g'; l'])) [concat0 0 [g'; l']])).
    { rewrite (sn_rows HT). apply vmap_jvp_layout; auto. }
    cbn [orel sres]. split; [apply so1; auto|]. split; [|apply lastrow_layout; exact HV]. split; [|reflexivity]. apply butlast_layout. exact HV.
Qed.
Lemma jvp_scatter_layout F dims ids mg args args' ex ex' th fl ax : natural mg -> so (f_op F) (f_op F) -> Forall2 (@sl A) args args' -> Forall2 sn ex ex' ->
  orel sres (jvp_scatter F dims ids mg ex th fl ax args) (jvp_scatter F dims ids mg ex' th fl ax args').
Proof.
  intros N Hf H He. unfold jvp_scatter. rewrite (all_weak_layout H), (any_weak_layout H), (R2_len H). destruct (_ || _); [apply parallel_layout; auto|].
  destruct H as [|o o' l m Ho H]; [exact I|]. destruct H as [|u u' l m Hu H]; [exact I|]. destruct H; [|exact I].
  assert (F1 : so (merged (f_op F) (new_merge mg 1 0) 1 (ex ++ [lx u])) (merged (f_op F) (new_merge mg 1 0) 1 (ex' ++ [lx u']))).
  { apply merged_layout; auto using natural_new_merge. apply R2_app; [exact He|]. constructor; [apply Hu|constructor]. }
  assert (F2 : so (merged (f_op F) (new_merge mg 1 1) 1 (ex ++ [lx o])) (merged (f_op F) (new_merge mg 1 1) 1 (ex' ++ [lx o']))).
  { apply merged_layout; auto using natural_new_merge. apply R2_app; [exact He|]. constructor; [apply Ho|constructor]. }
  assert (G : forall f f' b (a a' : lapl A), so f f' -> sl a a' -> orel sres (if weak (ljac a) then sparse_scatter_jvp f b dims ids a th fl ax else dense_jvp f [a] fl ax) (if weak (ljac a') then sparse_scatter_jvp f' b dims ids a' th fl ax else dense_jvp f' [a'] fl ax)).
  { intros f f' b a a' Hff Ha. rewrite (sj_weak (proj1 (proj2 Ha))). destruct (weak (ljac a')); [apply sparse_scatter_layout; auto|apply dense_jvp_layout; auto]. }
  cbv zeta. eapply orel_bind; [apply G; [exact F1|exact Ho]|]. intros [[y g] l] [[y' g'] l'] (A1 & A2 & A3). eapply orel_bind; [apply G; [exact F2|exact Hu]|]. intros [[z h] k] [[z' h'] k'] (B1 & B2 & B3).
  eapply orel_bind; [apply jadd_layout; [exact A2|exact B2]|]. intros g2 g2' Hg2. eapply orel_bind; [apply bin_layout; [exact A3|exact B3]|]. intros l2 l2' Hl2. cbn. auto.
Qed.
Theorem wrap_scatter_layout g ok filled dims ids c2r th args args' : Forall2 (@sa A) args args' -> orel sa (wrap_scatter g ok filled dims ids c2r th args) (wrap_scatter g ok filled dims ids c2r th args').
Proof.
  intros H. unfold wrap_scatter. pose proof (als_layout H) as HA. pose proof (exs_layout H) as HE. rewrite (mask_layout H). set (mg := merge_of _). assert (N : natural mg) by apply natural_merge_of.
  assert (E1 : map (fun a : lapl A => canon_axes (ndim (lx a)) None) (als args) = map (fun a => canon_axes (ndim (lx a)) None) (als args')) by (apply (R2_map_eq _ _ HA); intros x y (Hx & _); unfold ndim; rewrite Hx; reflexivity).
  assert (E2 : map (fun x : nd A => canon_axes (ndim x) None) (exs args) = map (fun x => canon_axes (ndim x) None) (exs args')) by (apply (R2_map_eq _ _ HE); intros x y Hx; unfold ndim; rewrite Hx; reflexivity).
  rewrite E1, E2. apply orel_eq; [reflexivity|]. intros axs. apply orel_eq; [reflexivity|]. intros eaxs.
  assert (G : orel sa (let* t := jvp_scatter (scatter_fn g ok filled) dims ids mg (exs args) th SCATTER_FLAGS None (als args) in let '(y, g', l) := t in
        let* h := jhj_trace (iop_op g) c2r SCATTER_FLAGS None (exs args) axs eaxs mg th (als args) in let* l2 := bin radd l h in Some (AL (Lapl y g' l2)))
      (let* t := jvp_scatter (scatter_fn g ok filled) dims ids mg (exs args') th SCATTER_FLAGS None (als args') in let '(y, g', l) := t in
        let* h := jhj_trace (iop_op g) c2r SCATTER_FLAGS None (exs args') axs eaxs mg th (als args') in let* l2 := bin radd l h in Some (AL (Lapl y g' l2)))).
  { eapply orel_bind; [apply jvp_scatter_layout; [exact N|exact (iop_layout g)|exact HA|exact HE]|]. intros [[y g'] l] [[y' g''] l'] (T1 & T2 & T3).
    eapply orel_bind; [apply jhj_layout; [exact N|exact (iop_layout g)|exact I|exact HA|exact HE]|]. intros h h' Hh. eapply orel_bind; [apply bin_layout; [exact T3|exact Hh]|]. intros l2 l2' Hl.
    cbn. split; [exact T1|]. split; [exact T2|exact Hl]. }
  assert (P : Forall2 sl (als args) (als args')) by exact HA. destruct P; [|exact G]. reflexivity.
Qed.
End ScatLayout.
