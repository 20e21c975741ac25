(** C21: Iterating a GraphUpdate yields exactly the events added, in the order they were added, numbered consecutively
    from 1, no matter how adding, iterating and serialising were interleaved. *)
From stdpp Require Import base list.
From Coq Require Import NArith Lia.
From Verif Require Import KeySer Bincode GraphUpdate GraphUpdateSpec GraphUpdateProofs.

(** Every history of fewer than 2^64 operations runs without an error, and shows what the log shows. *)
Theorem C21_update_list_is_a_log :
  ∀ ops, Forall op_ok ops → (N.of_nat (length ops) < 2 ^ 64)%N →
  ∃ g, gu_run gu_new ops = Some (g, log_run [] ops).
Proof. intros ops Hok Hn. exact (run_log ops gu_new [] linv_new Hok Hn). Qed.
Print Assumptions C21_update_list_is_a_log.

(** In particular after adding the events of any list, with anything in between. *)
Theorem C21_iterate_after_any_history :
  ∀ ops g rs, Forall op_ok ops → (N.of_nat (length ops) < 2 ^ 64)%N → gu_run gu_new ops = Some (g, rs) →
  (gu_iter g).2 = Some (imap (λ i e, (N.of_nat (S i), e)) (omap (λ o, match o with UAdd e => Some e | _ => None end) ops)).
Proof.
  intros ops g rs Hok Hn Hr.
  assert (∀ ops g log g' rs, linv g log → Forall op_ok ops → (N.of_nat (length log + length ops) < 2 ^ 64)%N →
    gu_run g ops = Some (g', rs) → linv g' (log ++ omap (λ o, match o with UAdd e => Some e | _ => None end) ops)) as Hgen.
  { clear. intros ops. induction ops as [|o ops IH]; intros g log g' rs I Hok Hn Hr.
    - injection Hr as <- _. by rewrite app_nil_r.
    - apply Forall_cons in Hok as [Ho Hok]. cbn [gu_run length] in Hr, Hn. destruct o as [e| |].
      + destruct (linv_add g log e I Ho ltac:(lia)) as (g1 & E1 & I1). cbn [gu_step] in Hr. rewrite E1 in Hr. cbn [mbind option_bind] in Hr.
        destruct (gu_run g1 ops) as [[g2 rs2]|] eqn:E2; [|done]. injection Hr as <- _.
        simpl. rewrite cons_middle, app_assoc. eapply IH; [exact I1|done| |done]. rewrite app_length. simpl. lia.
      + destruct (linv_iter g log I) as (g1 & E1 & I1). cbn [gu_step] in Hr. rewrite E1 in Hr. cbn [mbind option_bind] in Hr.
        destruct (gu_run g1 ops) as [[g2 rs2]|] eqn:E2; [|done]. injection Hr as <- _. simpl. eapply IH; [exact I1|done|lia|done].
      + destruct (linv_reload g log I) as (g1 & E1 & I1). rewrite E1 in Hr. cbn [mbind option_bind] in Hr.
        destruct (gu_run g1 ops) as [[g2 rs2]|] eqn:E2; [|done]. injection Hr as <- _. simpl. eapply IH; [exact I1|done|lia|done]. }
  destruct (linv_iter _ _ (Hgen ops _ [] _ _ linv_new Hok Hn Hr)) as (g' & -> & _). done.
Qed.
Print Assumptions C21_iterate_after_any_history.

(** The encoding of an update list can be decoded again; different lists have different encodings. *)
Theorem C21_serialisation_round_trip :
  ∀ log, Forall event_ok log → (N.of_nat (length log) < 2 ^ 64)%N →
  dec_updates (enc_updates (N.of_nat (length log), numbered log)) = Some (numbered log).
Proof.
  intros log Hok Hn. rewrite <- (numbered_length log) at 1. apply dec_enc_updates; [by rewrite numbered_length|].
  by apply numbered_ok.
Qed.
Print Assumptions C21_serialisation_round_trip.

Definition ex_events : list event := [AddNode [99%N] [110%N]; DeleteNode [99%N]; AddEdgeLabel [] [1%N] [] [2%N] [] [] [3%N] [4%N]].
Definition ex_ops : list gu_op := [UIter; UAdd (AddNode [99%N] [110%N]); UAdd (DeleteNode [99%N]); UIter; UReload;
  UAdd (AddEdgeLabel [] [1%N] [] [2%N] [] [] [3%N] [4%N]); UIter].
Example update_example : Forall op_ok ex_ops ∧
  (snd <$> gu_run gu_new ex_ops) = Some [([], 0%N, true); ([], 1%N, false); ([], 2%N, false);
    ([(1%N, AddNode [99%N] [110%N]); (2%N, DeleteNode [99%N])], 2%N, false); ([], 2%N, false); ([], 3%N, false);
    (zip [1; 2; 3]%N ex_events, 3%N, false)].
Proof.
  split; [|vm_compute; reflexivity]. unfold ex_ops.
  repeat (apply Forall_cons; split; [first [exact I | unfold op_ok, event_ok; repeat (apply Forall_cons; split; [vm_compute; reflexivity|]); apply Forall_nil; exact I]|]).
  by apply Forall_nil.
Qed.
