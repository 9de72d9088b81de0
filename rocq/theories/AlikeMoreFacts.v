(** * Proofs for PropAlikeMore.v: what the readers of types with conversions, unreadable parts and aliases
    have in common with the others. *)
From Coq Require Import String.
From Verif Require Import Base BaseFacts Varint Serde SerdeFacts SerdeMore Alias Std Conv ConvFacts Tagged TaggedFacts AlikeFacts SpecCalls CallsFacts.
Local Open Scope list_scope.
Local Open Scope N_scope.

Section Closed.
  Context (c : cfg) (P : forall A : Type, prog A -> Prop) (K : kept_by_all c true P).
  Arguments P {A}.
  Hint Extern 1 (_ = ERead \/ _ = EMsg) => first [left; reflexivity | right; reflexivity] : core.

  Lemma c_alts {V} (alts : list (N -> prog V)) : Forall (fun a => forall i, P (a i)) alts ->
    P (i <- de_u16 ;; match pickN alts i with Some alt => alt i | None => Fail EMsg end).
  Proof.
    intros H. apply (c_bind c true _ K); [apply (k_u16 c true _ K)|]. intros i. destruct (pickN alts i) as [a|] eqn:E; [|apply (c_fail c true _ K); auto].
    apply pickN_some in E as [Hin _]. rewrite Forall_forall in H. apply (H a Hin).
  Qed.
  Theorem all_conv {U} (t : cty U) : P (cde c t).
  Proof.
    induction t as [t|into from t IH|into from t IH|t IH|t IH|ts IH|t IH|fs IH|vs IH] using cty_ind2; cbn [cde].
    - apply (c_pmap c true _ K), (all_std c true _ K), eq_refl.
    - apply (c_pmap c true _ K), IH.
    - apply (c_bind c true _ K); [exact IH|]. intros v. destruct (from v); [apply (c_ret c true _ K)|apply (c_fail c true _ K); auto].
    - apply (c_pmap c true _ K), (c_option c true _ K), IH.
    - apply (c_pmap c true _ K), (c_vec c true _ K), IH.
    - apply (c_pmap c true _ K), (c_sequence c true _ K). induction IH; cbn [map]; constructor; assumption.
    - apply (c_pmap c true _ K), (c_map c true _ K), IH.
    - apply (c_pmap c true _ K), (c_struct c true _ K). induction IH; cbn [map]; constructor; assumption.
    - apply c_alts. induction IH as [|v vs Hv _ IH]; cbn [map]; constructor; [intros i; apply (c_pmap c true _ K), Hv|exact IH].
  Qed.
  Theorem all_tagged t : P (gtde c t).
  Proof.
    induction t as [d|t IH|t IH|ts IH|t IH|fs IH|vs IH| | |] using gty_ind2; cbn [gtde]; try apply (c_crash c true _ K).
    - apply (c_pmap c true _ K), (k_de c true _ K), eq_refl.
    - apply (c_pmap c true _ K), (c_option c true _ K), IH.
    - apply (c_pmap c true _ K), (c_vec c true _ K), IH.
    - apply (c_pmap c true _ K), (c_sequence c true _ K). induction IH; cbn [map]; constructor; assumption.
    - apply (c_pmap c true _ K), (c_map c true _ K), IH.
    - apply (c_pmap c true _ K), (c_struct c true _ K). induction IH; cbn [map]; constructor; assumption.
    - apply c_alts. induction IH as [|v vs Hv _ IH]; cbn [map]; constructor; [intros i; apply (c_pmap c true _ K), Hv|exact IH].
  Qed.
  Theorem all_alias every fs : P (alias_de c every fs).
  Proof.
    apply (c_bind c true _ K).
    - generalize (flat_map (announced every) fs) as keys. generalize (map (fun _ : afield => @None sval) fs) as slots. intros slots keys. revert slots.
      induction keys as [|k keys IH]; intros slots; cbn [alias_loop]; [apply (c_ret c true _ K)|].
      destruct (find_alias k fs) as [[i f]|]; [|apply (c_crash c true _ K)]. destruct (nth_error slots i) as [[a|]|]; try (apply (c_fail c true _ K); auto).
      apply (c_bind c true _ K); [apply (k_de c true _ K), eq_refl|]. intros a. apply IH.
    - intros slots. apply (c_bind c true _ K); [apply (c_missing c true _ K)|]. intros l. apply (c_ret c true _ K).
  Qed.
End Closed.

Lemma kept_thrifty c : kept_by_all c true (fun A => @spends A c 0 0).
Proof.
  constructor.
  - intros; apply spends_ret.
  - intros; apply spends_fail.
  - intros; apply spends_crash.
  - intros A B p f. apply thrifty_bind.
  - intros S n st s. apply thrifty_foldN.
  - apply thrifty_saves, calls_byte.
  - apply thrifty_saves, calls_u16.
  - apply thrifty_saves, calls_u32.
  - apply thrifty_saves, calls_u64.
  - apply thrifty_saves, spends_exact; [lia|]. intros b. apply spends_ret.
  - apply thrifty_saves, spends_exact; [lia|]. intros b. apply spends_ret.
  - apply calls_string.
  - apply calls_byte_buf.
  - intros _ d. apply calls_de.
Qed.
