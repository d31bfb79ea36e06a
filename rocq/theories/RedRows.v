(* RedRows.v : how many rows get_jacobian_for_reduction (utils.py:428-517) gives its index tensor. *)
From Verif Require Export ReduceFacts.
From Coq Require Import ZifyBool Permutation.
Set Implicit Arguments.

Section Rows.
Context {A : Type} {RA : CRing A}.
Add Ring Aring_RedRows : (@rth A RA).
Open Scope cr_scope.
(* how many rows get_jacobian_for_reduction gives its index tensor (proof) *)
Lemma red_rows (J : jac A) m n s axes : jwf n s J -> jidx J = Some m -> NoDup axes -> (forall d, In d axes -> (d < length s)%nat) ->
  forall gt om, get_jacobian_for_reduction J axes = Some (gt, om) ->
  let keep := keep_pos (length s) axes in let t := permute keep s in
  exists per : nat -> list Z, rows om = maxl (map (fun b => length (per b)) (seq 0 (prod t))) /\ (forall b, NoDup (per b)) /\
    forall c z, inb c t -> In z (per (ravel_ix t c)) <-> z <> (-1)%Z /\ exists r q, (r < rows (jdata J))%nat /\ inb q s /\ permute keep q = c /\ at_ m (r :: q) = z.
Proof.
  intros Hwf Em Hnd Hlt gt om H keep t. destruct (jwf_sparse Hwf Em) as (Hd & Hm & Hran).
  set (k := rows (jdata J)) in *. unfold get_jacobian_for_reduction in H. cbv zeta in H. rewrite (mask_sparse _ Em) in H.
  set (m1 := bexc1 (tl (sh m)) m) in *.
  assert (sh m1 = k :: s) as Hm1 by (unfold m1; rewrite bexc1_sh, (rows_cons _ Hm), Hm; reflexivity).
  assert (forall r q, (r < k)%nat -> inb q s -> at_ m1 (r :: q) = at_ m (r :: q)) as Hm1a.
  { intros r q Hr Hq. unfold m1. rewrite Hm. cbn [tl]. rewrite (bexc1_at _ _ _ Hm Hr) by (rewrite (inb_length Hq); auto).
    rewrite bproj_same; auto. }
  unfold ndim in H. rewrite Hm1 in H. cbn [tl length] in H.
  set (jred := map S axes ++ [0%nat]) in *.
  assert (filter (fun d => negb (existsb (Nat.eqb d) jred)) (seq 0 (S (length s))) = map S keep) as Hkept.
  { assert (forall d, existsb (Nat.eqb (S d)) jred = existsb (Nat.eqb d) axes) as E.
    { intros d. unfold jred. rewrite existsb_app. cbn. rewrite orb_false_r. clear. induction axes; cbn; auto. rewrite IHaxes. reflexivity. }
    change (seq 0 (S (length s))) with (0%nat :: seq 1 (length s)). rewrite <- seq_shift. unfold keep, keep_pos. cbn [filter].
    assert (existsb (Nat.eqb 0) jred = true) as E0 by (apply existsb_eqb_In; unfold jred; apply in_or_app; cbn; auto).
    rewrite E0. cbn [negb]. generalize (seq 0 (length s)). intros ls. induction ls as [|d ls IH]; [reflexivity|]. cbn [map filter].
    rewrite E. destruct (existsb (Nat.eqb d) axes); cbn [negb map]; [exact IH|f_equal; exact IH]. }
  rewrite Hkept in H.
  assert (permute (map S keep) (k :: s) = t) as Hks.
  { unfold permute. rewrite map_map. reflexivity. }
  rewrite Hks in H. rewrite (rows_cons _ Hm1) in H.
  set (rsize := prod (permute axes s)) in *. set (ksize := prod t) in *.
  set (ord := map S keep ++ jred) in *.
  assert (is_perm ord (S (length s))) as Hperm.
  { unfold ord, jred, is_perm. rewrite app_assoc, <- map_app. eapply Permutation_trans; [apply Permutation_app_comm|].
    cbn [app seq]. constructor. rewrite <- seq_shift. apply Permutation_map.
    eapply Permutation_trans; [apply Permutation_app_comm|]. apply axes_keep_perm; auto. }
  assert (forall x (l : list nat), permute ord (x :: l) = permute keep l ++ permute axes l ++ [x]) as Hpo.
  { intros x l0. unfold ord, jred. rewrite !permute_app. unfold permute. rewrite !map_map. reflexivity. }
  set (m3 := reshape [ksize; rsize; k] (transpose ord m1)) in *.
  set (per := fun b => filter (fun z => negb (Z.eqb z (-1))) (uniqZ (flat (row m3 b)))) in *.
  set (mu := maxl (map (fun b => length (per b)) (seq 0 ksize))) in *.
  set (omf := Nd [ksize; mu] (fun i => nth (nth 1 i 0%nat) (per (nth 0 i 0%nat)) (-1)%Z)) in *.
  set (oms := transpose (argsort ord) (reshape (t ++ repeat 1%nat (length (permute axes s)) ++ [mu]) omf)) in *.
  (* per b : the stored indices of the slice with kept coordinates c, ravel c = b *)
  assert (forall c z, inb c t -> In z (per (ravel_ix t c)) <->
     z <> (-1)%Z /\ exists r q, (r < k)%nat /\ inb q s /\ permute keep q = c /\ at_ m (r :: q) = z) as Hper.
  { intros c z Hc. unfold per. rewrite filter_In, uniqZ_In, flat_In. rewrite negb_true_iff.
    assert (forall j r, inb j (permute axes s) -> (r < k)%nat ->
       at_ m3 [ravel_ix t c; ravel_ix (permute axes s) j; r] = at_ m (r :: weave (length s) axes c j)) as G.
    { intros j r Hj Hr.
      assert (inb (weave (length s) axes c j) s) as Hw by (apply weave_inb; auto).
      rewrite <- Hm1a by auto.
      rewrite <- (@transpose_at _ ord m1 (r :: weave (length s) axes c j)).
      2:{ unfold ndim. rewrite Hm1. auto. }
      2:{ unfold ndim. rewrite Hm1. cbn. rewrite weave_length. auto. }
      rewrite Hpo. unfold keep at 1. rewrite weave_axes, weave_keep; auto.
      2:{ rewrite (inb_length Hc). unfold t. apply permute_length. }
      2:{ rewrite (inb_length Hj). apply permute_length. }
      unfold m3. apply reshape_ravel_eq.
      - rewrite transpose_sh, Hm1, Hpo. fold t. repeat apply inb_app; auto. repeat constructor; auto.
      - rewrite transpose_sh, Hm1, Hpo. fold t. rewrite ravel_app by (apply inb_length; auto).
        rewrite ravel_app by (apply inb_length; auto). rewrite !prod_app. cbn [prod ravel_ix]. fold rsize. lia. }
    split.
    - intros [(i & Hi & E) Hz]. split; [intros ->; discriminate|].
      unfold row in Hi, E. cbn [sh m3 reshape tl at_] in Hi, E.
      inversion Hi as [|x ? i1 ? Hx Hi1]; subst. inversion Hi1 as [|r ? i2 ? Hr Hi2]; subst. inversion Hi2; subst.
      pose proof (unravel_inb _ Hx) as Hj.
      exists r, (weave (length s) axes c (unravel_ix (permute axes s) x)). split; auto.
      split; [apply weave_inb; auto|]. split.
      + apply weave_keep. rewrite (inb_length Hc). apply permute_length.
      + symmetry. rewrite <- G by auto. rewrite ravel_unravel by auto. reflexivity.
    - intros (Hz & r & q & Hr & Hq & Hc' & E). split; [|lia].
      exists [ravel_ix (permute axes s) (permute axes q); r]. 
      assert (inb (permute axes q) (permute axes s)) as Hj by (apply permute_inb; auto).
      split.
      + cbn. repeat constructor; auto. apply ravel_lt; auto.
      + unfold row. cbn [at_]. rewrite G by auto. rewrite <- Hc'. unfold keep. rewrite weave_permute by (auto; apply inb_length; auto). auto. }
  exists per. split; [|split; [intros b; apply NoDup_filter, uniqZ_NoDup|exact Hper]].
  destruct (get_index_mask J _) as [im|]; [|discriminate]. cbn [bind] in H. destruct (materialize_for_idx J true im _) as [jj|]; [|discriminate]. cbn [bind] in H. injection H as _ <-. reflexivity.
Qed.
End Rows.
