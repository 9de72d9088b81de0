(** * Structs with flattened fields. *)
From Coq Require Import String Ascii.
From Verif Require Import Base BaseFacts Varint VarintFacts SpecVarint Utf8 Serde SerdeFacts MapFacts EvolveWire SpecOutput OutputFacts Flatten SpecFlatten SpecAccept SpecReject SpecReads ReadsFacts DeriveRec.
Local Open Scope list_scope.
Local Open Scope N_scope.

Definition str_entry (kv : list N * sval) : sval * sval := (SStr (fst kv), snd kv).
Lemma contributes_entries v l : contributes v l -> flat_entries v = Some (map str_entry l).
Proof.
  induction 1 as [|v l _ IH|v l _ IH|fs|n l]; cbn [flat_entries]; auto. f_equal. rewrite map_map. apply map_ext. intros [k v]; reflexivity.
Qed.
Lemma named_entries ms l : named_values ms l -> members_entries ms = Some (map str_entry l).
Proof.
  induction 1 as [|name v ms l _ IH|v lv ms l H _ IH]; cbn [members_entries member_entries]; [reflexivity|rewrite IH; reflexivity|].
  rewrite (contributes_entries v lv H), IH, map_app. reflexivity.
Qed.

Definition named_bytes (l : list (list N * sval)) : list N :=
  concat (map (fun kv => varint_bytes 8 (lenN (fst kv)) ++ fst kv ++ wbytes (ser (snd kv))) l).
Definition writable (l : list (list N * sval)) : Prop := Forall (fun kv => lenN (fst kv) < 2 ^ 64 /\ wresult (ser (snd kv)) = WeOk) l.
Lemma named_output_bytes l u : in_range l -> named_output l u -> writable l /\ u = named_bytes l.
Proof.
  intros HR H. induction H as [|k v l u t Hv _ IH]; [split; [constructor|reflexivity]|]. inversion HR as [|? ? [Hk Hr] HR']; subst.
  destruct (IH HR') as [IH1 ->]. apply output_iff in Hv as [<- Hv]; [|exact Hr]. split; [constructor; auto|].
  unfold named_bytes, text. cbn [map concat fst snd]. rewrite <- !app_assoc. reflexivity.
Qed.

Lemma named_ser l : writable l ->
  wresult (ser (SMap None (map str_entry l))) = WeOk /\ wbytes (ser (SMap None (map str_entry l))) = named_bytes l.
Proof.
  intros H. cbn [ser ser_len]. change (wseq WDone ?w) with w. rewrite map_map. unfold str_entry; cbn [fst snd].
  unfold writable in H. induction H as [|[k v] l [Hk Hv] _ [IH1 IH2]]; [split; reflexivity|]. unfold named_bytes in *. cbn [map wconcat concat fst snd] in *.
  assert (E1 : wresult (ser_key (SStr k)) = WeOk) by reflexivity.
  assert (E2 : wresult (wseq (ser_key (SStr k)) (ser v)) = WeOk) by (apply wresult_wseq_ok_iff; auto).
  change (wconcat (?a :: ?b)) with (wseq a (wconcat b)). split; [apply wresult_wseq_ok_iff; auto|]. rewrite !wbytes_wseq_done by assumption. rewrite IH2.
  assert (E3 : wbytes (ser_key (SStr k)) = varint_bytes 8 (lenN k) ++ k).
  { cbn [ser_key]. unfold ser_str. rewrite <- enc_u64_spec by exact Hk. cbn. rewrite ?app_nil_r. reflexivity. }
  rewrite E3, <- !app_assoc. reflexivity.
Qed.

Lemma flat_written ms l : named_values ms l -> writable l ->
  exists sv, flatten_sval ms = Some sv /\ wresult (ser sv) = WeOk /\ wbytes (ser sv) = named_bytes l.
Proof.
  intros H Hl. unfold flatten_sval. rewrite (named_entries ms l H). eexists; split; [reflexivity|]. apply named_ser, Hl.
Qed.

Lemma nameless_entries v : nameless v -> flat_entries v = Some [(SError, SUnit)].
Proof. induction 1; cbn [flat_entries]; auto. Qed.
Lemma flat_refused ms l v ms' sv : named_values ms l -> writable l ->
  nameless v -> flatten_sval (ms ++ Flat v :: ms') = Some sv -> wresult (ser sv) = WeErr SEMsg /\ wbytes (ser sv) = named_bytes l.
Proof.
  intros H Hl Hv E. pose proof (named_entries ms l H) as E0.
  assert (E1 : exists es, members_entries (ms ++ Flat v :: ms') = Some (map str_entry l ++ (SError, SUnit) :: es)).
  { assert (E1 : members_entries (ms ++ Flat v :: ms') <> None) by (unfold flatten_sval in E; intros E1; rewrite E1 in E; discriminate).
    clear E Hl. revert E1. revert l H E0. induction ms as [|m ms IH]; intros l H E0.
    - injection E0 as E0. rewrite <- E0. cbn [app members_entries member_entries]. rewrite (nameless_entries v Hv).
      destruct (members_entries ms') as [es|]; [|congruence]. intros _; exists es; reflexivity.
    - cbn [app members_entries] in *. inversion H as [|name w ms0 l0 H0|w lw ms0 l0 Hw H0]; subst.
      + cbn [member_entries] in *. intros E. destruct (members_entries (ms ++ Flat v :: ms')) eqn:E'; [|congruence].
        destruct (IH l0 H0 (named_entries _ _ H0) ltac:(discriminate)) as (es & E2). exists es. injection E2 as ->. reflexivity.
      + cbn [member_entries] in *. rewrite (contributes_entries w lw Hw) in *. intros E. destruct (members_entries (ms ++ Flat v :: ms')) eqn:E'; [|congruence].
        destruct (IH l0 H0 (named_entries _ _ H0) ltac:(discriminate)) as (es & E2). exists es. injection E2 as ->. rewrite map_app, <- app_assoc. reflexivity. }
  destruct E1 as (es & E1). unfold flatten_sval in E. rewrite E1 in E. injection E as <-.
  destruct (named_ser l Hl) as [R B]. cbn [ser ser_len] in *. change (wseq WDone ?w) with w in *. rewrite map_app, wconcat_app_eq. split.
  - rewrite wresult_wseq, R. reflexivity.
  - rewrite wbytes_wseq_done by exact R. rewrite B. cbn. apply app_nil_r.
Qed.

Lemma flat_first c k t r A (p : prog A) : wf_cfg c -> k <> [] -> bytes_ok (k ++ t ++ r) -> lenN k < 2 ^ usize_bits c ->
  let o := run c (flatten_de c p) (varint_bytes 8 (lenN k) ++ (k ++ t) ++ r) in
  (o = OPanic PTodo \/ o = OErr ERead) /\ (hd 0 k < 128 -> o = OPanic PTodo).
Proof.
  intros Hw Hk Hb Hl o. assert (H64 : lenN k < 2 ^ 64).
  { destruct Hw as [[E|E] _]; rewrite E in Hl; [|exact Hl]. revert Hl. generalize (lenN k). intros n Hn.
    eapply N.lt_trans; [exact Hn|reflexivity]. }
  assert (Eo : o = match run c de_u16 ((k ++ t) ++ r) with OOk _ _ => OPanic PTodo | OErr e => OErr e | OPanic q => OPanic q end).
  { unfold o, flatten_de. rewrite run_bind. rewrite <- enc_u64_spec by exact H64. rewrite (proj1 (parses_u64 c ERead (lenN k) H64)). cbn [obind].
    unfold as_usize. rewrite N.mod_small by exact Hl. destruct (N.eqb_spec (lenN k) 0) as [E|_].
    - destruct k; [congruence|]. rewrite lenN_cons in E. lia.
    - rewrite run_bind. destruct (run c de_u16 ((k ++ t) ++ r)); reflexivity. }
  rewrite Eo. rewrite <- app_assoc. split.
  - destruct (u16_cases c (k ++ t ++ r) Hb) as [[_ E]|(l & n & r' & _ & _ & E & _)]; unfold de_u16; rewrite E; auto.
  - intros Hh. destruct k as [|b k]; [congruence|]. cbn [hd] in Hh. cbn [app]. unfold de_u16. rewrite (run_u16_small c b _ Hh). reflexivity.
Qed.
Lemma flat_lost c ms k v l sv r A (p : prog A) : wf_cfg c -> named_values ms ((k, v) :: l) -> k <> [] -> lenN k < 2 ^ usize_bits c ->
  writable ((k, v) :: l) ->
  flatten_sval ms = Some sv -> bytes_ok (wbytes (ser sv) ++ r) ->
  let o := run c (flatten_de c p) (wbytes (ser sv) ++ r) in
  (o = OPanic PTodo \/ o = OErr ERead) /\ (hd 0 k < 128 -> o = OPanic PTodo).
Proof.
  intros Hw H Hk Hl HF E Hb. destruct (flat_written ms _ H HF) as (sv' & E' & _ & B). rewrite E' in E. injection E as ->.
  rewrite B in *. unfold named_bytes in *. cbn [map concat fst snd] in *. rewrite <- !app_assoc in *. rewrite (app_assoc k).
  apply (flat_first c k (wbytes (ser v)) _ A p); auto. apply Forall_app in Hb as [_ Hb]. exact Hb.
Qed.
Lemma flat_ends c A (p : prog A) s x : bytes_ok s -> (flat_end c (run c p) s x <-> run c (flatten_de c p) s = x).
Proof.
  intros Hs. assert (HR : flat_end c (run c p) s (run c (flatten_de c p) s)).
  { unfold flatten_de. rewrite run_bind. destruct (u64_cases c s Hs) as [[Hsh ->]|(l & n & t & -> & Hl & _ & -> & Ht)]; [apply fe_no_count, Hsh|].
    cbn [obind]. unfold as_usize. destruct (N.eqb_spec (n mod 2 ^ usize_bits c) 0) as [E|E]; [apply (fe_empty c _ l n t Hl E)|].
    rewrite run_bind. unfold de_u16. destruct (u16_cases c t Ht) as [[Hsh ->]|(k & m & r & -> & Hk & -> & _)].
    - apply (fe_no_key c _ l n t Hl E Hsh).
    - apply (fe_entry c _ l n k m r Hl E Hk). }
  split; [|intros <-; exact HR]. intros H. unfold flatten_de. rewrite run_bind.
  destruct H as [s Hsh|l n t Hl E|l n t Hl E Hsh|l n k m t Hl E Hk].
  - rewrite (short_run c s Hs Hsh). reflexivity.
  - rewrite (code_run c l n t Hs Hl). cbn [obind]. unfold as_usize. rewrite E. reflexivity.
  - rewrite (code_run c l n t Hs Hl). cbn [obind]. unfold as_usize. apply N.eqb_neq in E. rewrite E, run_bind. unfold de_u16.
    rewrite (short_run16 c t); [reflexivity|eapply app_ok_r, Hs|exact Hsh].
  - rewrite (code_run c l n (k ++ t) Hs Hl). cbn [obind]. unfold as_usize. apply N.eqb_neq in E. rewrite E, run_bind. unfold de_u16.
    rewrite (code_run16 c k m t); [reflexivity|eapply app_ok_r, Hs|exact Hk].
Qed.
