(* Props_Vmap.v : C30, C31 *)
From Verif Require Export VmapFacts.
Set Implicit Arguments.

(* C30. For every batch size, chunk size m >= 1, argument list, in_axes (with None), out_axes and traced function:
   batched_vmap raises exactly when vmap raises, and otherwise returns the same arrays. *)
Theorem C30_batched_vmap : forall (A : Type) (d0 : A) (f : @fn A) m axes oaxes args,
  traced f -> nonempty args -> 1 <= m ->
  orel (Forall2 eqa) (batched_vmap d0 f m axes oaxes args) (vmap d0 f axes oaxes args).
Proof. exact @batched_vmap_vmap. Qed.
Print Assumptions C30_batched_vmap.

(* a function of a mapped vector of length 2 and a broadcast scalar *)
Definition ex_f : @fn Z := fun xs =>
  match xs with
  | [x; y] => match sh x, sh y with
              | [2], [] => Some [Nd [2] (fun i => at_ x [hd 0%nat i] * at_ y [])%Z; Nd [] (fun _ => at_ x [0%nat] - at_ x [1%nat])%Z]
              | _, _ => None end
  | _ => None
  end.
Example C30_traced : traced ex_f.
Proof.
  split.
  - intros xs ys H. destruct H as [|a b xs ys [Hs Ha] [|a' b' xs' ys' [Hs' Ha'] [|]]]; try exact I.
    cbn. rewrite <- Hs, <- Hs'. destruct (sh a) as [|[|[|[|n]]] [|]] eqn:E; try exact I. destruct (sh a') eqn:E'; [|exact I].
    cbn. constructor; [|constructor; [|constructor]].
    + split; [reflexivity|]. cbn. intros i Hi. inversion Hi as [|x ? i' ? Hx Hi']; subst. cbn.
      rewrite (Ha [x]), (Ha' []); [reflexivity|constructor|]. constructor; [exact Hx|constructor].
    + split; [reflexivity|]. cbn. intros i _. rewrite (Ha [0]), (Ha [1]); [reflexivity| |]; repeat constructor.
  - intros xs xs' ys ys' _ H H'.
    assert (G : forall xs ys, ex_f xs = Some ys -> map (@sh Z) ys = [[2]; []]).
    { clear. intros xs ys. unfold ex_f. destruct xs as [|x [|y [|]]]; try discriminate.
      destruct (sh x) as [|[|[|[|]]] [|]]; try discriminate; destruct (sh y); try discriminate. intros H. injection H as <-. reflexivity. }
    rewrite (G _ _ H), (G _ _ H'). reflexivity.
Qed.
(* 5 examples along axis 1 of the first argument, chunks of 2, second argument broadcast, outputs stacked along -1 and 0 *)
Definition ex_args := [arr [2; 5] [1;2;3;4;5; 6;7;8;9;10]%Z; arr [] [3]%Z].
Example C30_nonempty : nonempty ex_args.
Proof. repeat constructor; discriminate. Qed.
Example C30_run : option_map (map (fun a => (sh a, flat a))) (batched_vmap 0%Z ex_f 2 [Some 1%Z; None] [(-1)%Z; 0%Z] ex_args)
  = Some [([2; 5], [3;6;9;12;15; 18;21;24;27;30]%Z); ([5], [-5;-5;-5;-5;-5]%Z)].
Proof. vm_compute. reflexivity. Qed.
(* mapped arguments of different sizes raise in both, although the assert of batched_vmap never fires *)
Example C30_mismatch : batched_vmap 0%Z (fun _ => Some []) 2 [Some 0%Z; Some 0%Z] [] [arr [5] []; arr [4] []] = None.
Proof. vm_compute. reflexivity. Qed.

(* C31. cost n is the linear cost model through the two measured batch sizes. *)
Definition linear_cost (single pair n : Z) : Z := (single + (n - 1) * (pair - single))%Z.
Theorem C31_at_least_one : forall tn td single pair, (1 <= max_samples tn td single pair)%Z.
Proof. intros. unfold max_samples. destruct (_ =? 0)%Z; lia. Qed.
Print Assumptions C31_at_least_one.
Theorem C31_fits : forall tn td single pair, (0 < td)%Z ->
  (linear_cost single pair 1 * td <= tn)%Z -> (linear_cost single pair (max_samples tn td single pair) * td <= tn)%Z.
Proof.
  intros tn td s p Htd H. unfold linear_cost in *. unfold max_samples. set (e := (p - s)%Z) in *.
  destruct (Z.eqb_spec e 0) as [E|E]; [rewrite E; lia|].
  replace (s - e)%Z with (s - e)%Z by reflexivity. set (q := ((tn - (s - e) * td) / (e * td))%Z).
  destruct (Z.max_spec q 1) as [[_ ->]|[Hq ->]]; [lia|].
  assert (He : (e * td <> 0)%Z) by nia.
  destruct (Z.lt_ge_cases e 0) as [Hn|Hn].
  - (* a negative element cost makes the quotient at most 1 *)
    pose proof (Z.div_mod (tn - (s - e) * td) (e * td) He) as Hd.
    pose proof (Z.mod_neg_bound (tn - (s - e) * td) (e * td) ltac:(nia)) as Hm. fold q in Hd. nia.
  - pose proof (Z.mul_div_le (tn - (s - e) * td) (e * td) ltac:(nia)) as Hm. fold q in Hm. nia.
Qed.
Print Assumptions C31_fits.
(* no larger batch fits, when examples cost memory *)
Theorem C31_largest : forall tn td single pair n, (0 < td)%Z -> (single < pair)%Z ->
  (linear_cost single pair n * td <= tn)%Z -> (n <= max_samples tn td single pair)%Z.
Proof.
  intros tn td s p n Htd He H. unfold linear_cost in *. unfold max_samples. destruct (Z.eqb_spec (p - s) 0) as [E|E]; [lia|].
  apply Z.le_trans with ((tn - (s - (p - s)) * td) / ((p - s) * td))%Z; [|lia].
  apply Z.div_le_lower_bound; nia.
Qed.
Print Assumptions C31_largest.
(* whatever the measurements say (or raise), the result is that of vmap *)
Theorem C31_result : forall (A : Type) (d0 : A) (f : @fn A) target single pair axes oaxes args,
  traced f -> nonempty args ->
  orel (Forall2 eqa) (auto_batched_vmap d0 f (Some target) single pair axes oaxes args) (vmap d0 f axes oaxes args).
Proof.
  intros A d0 f [tn td] single pair axes oaxes args Hf Hne. unfold auto_batched_vmap. cbn [bind fst snd].
  pose proof (C30_batched_vmap d0 axes oaxes Hf Hne (le_n 1)) as H1.
  destruct single as [s|]; [|exact H1]. destruct pair as [p|]; [|exact H1].
  pose proof (C31_at_least_one tn td s p) as Hm.
  assert (Hm' : 1 <= Z.to_nat (max_samples tn td s p)) by lia.
  pose proof (C30_batched_vmap d0 axes oaxes Hf Hne Hm') as H2.
  destruct (batched_vmap d0 f (Z.to_nat _) axes oaxes args); [exact H2|exact H1].
Qed.
Print Assumptions C31_result.
(* without memory statistics (jax's CPU back end) the decorator itself raises *)
Theorem C31_no_stats_raises : exists (A : Type) (d0 : A) (f : @fn A) single pair axes oaxes args,
  traced f /\ nonempty args /\ vmap d0 f axes oaxes args <> None /\
  auto_batched_vmap d0 f None single pair axes oaxes args = None.
Proof.
  exists Z, 0%Z, ex_f, None, None, [Some 1%Z; None], [0%Z; 0%Z], ex_args.
  split; [exact C30_traced|]. split; [exact C30_nonempty|]. split; [|reflexivity].
  assert (H : match vmap 0%Z ex_f [Some 1%Z; None] [0%Z; 0%Z] ex_args with Some _ => true | None => false end = true) by (vm_compute; reflexivity).
  intros E. rewrite E in H. discriminate.
Qed.
Print Assumptions C31_no_stats_raises.
Example C31_run : max_samples 1000 1 100 130 = 31%Z /\ (linear_cost 100 130 31 = 1000)%Z /\ max_samples 1000 1 200 190 = 1%Z.
Proof. repeat split; reflexivity. Qed.
