(** * Lemmas behind C10 - C19 and C45 - C52. *)
From Coq Require Import String.
From Verif Require Import Base BaseFacts Varint VarintFacts SpecVarint Utf8 Serde Typing SpecMap SpecDty SpecRequest
  PrimFacts SerdeFacts SerdeMore SerdeSize WidthFacts SerdeSafe Consume MapFacts.
Local Open Scope list_scope.
Local Open Scope N_scope.

Lemma rt_run c d v rest : wf_cfg c -> 4096 <= heap_limit c -> wf_dty d = true -> has_ty c d v = true ->
  wresult (ser v) = WeOk /\ run c (de c d) (wbytes (ser v) ++ rest) = OOk v rest.
Proof. intros H1 H2 H3 H4. destruct (roundtrip c d v H1 H2 H3 H4) as [Hw [Hp _]]. auto. Qed.
Lemma rt_prefix c d v u x t : wf_cfg c -> 4096 <= heap_limit c -> wf_dty d = true -> has_ty c d v = true ->
  wbytes (ser v) = u ++ x :: t -> run c (de c d) u = OErr ERead.
Proof. intros H1 H2 H3 H4 E. destruct (roundtrip c d v H1 H2 H3 H4) as [_ [_ Hp]]. eapply Hp; exact E. Qed.
Lemma rt_inj c d v1 v2 t1 t2 : wf_cfg c -> 4096 <= heap_limit c -> wf_dty d = true ->
  has_ty c d v1 = true -> has_ty c d v2 = true ->
  wbytes (ser v1) ++ t1 = wbytes (ser v2) ++ t2 -> v1 = v2 /\ t1 = t2.
Proof.
  intros H1 H2 H3 Ha Hb E. destruct (rt_run c d v1 t1 H1 H2 H3 Ha) as [_ R1].
  destruct (rt_run c d v2 t2 H1 H2 H3 Hb) as [_ R2]. rewrite E, R2 in R1. injection R1 as <- <-. auto.
Qed.
Lemma rt_stream c ds vs rest : wf_cfg c -> 4096 <= heap_limit c ->
  Forall2 (fun d v => wf_dty d = true /\ has_ty c d v = true) ds vs ->
  wresult (wconcat (map ser vs)) = WeOk /\
  reads c ds (wbytes (wconcat (map ser vs)) ++ rest) vs rest.
Proof.
  intros H1 H2. induction 1 as [|d v ds vs [Hd Hv] HF [IH1 IH2]]; cbn [map].
  - split; [reflexivity|apply reads_nil].
  - change (wconcat (ser v :: map ser vs)) with (wseq (ser v) (wconcat (map ser vs))).
    destruct (rt_run c d v (wbytes (wconcat (map ser vs)) ++ rest) H1 H2 Hd Hv) as [Hw Hr].
    rewrite wresult_wseq, Hw. split; [exact IH1|]. rewrite wbytes_wseq_done, <- app_assoc by exact Hw.
    eapply reads_cons; [exact Hr|exact IH2].
Qed.

(** Decoding from nothing. *)
Lemma de_empty c d : wf_dty d = true ->
  if occupies d then run c (de c d) [] = OErr ERead else exists v, run c (de c d) [] = OOk v [].
Proof.
  revert d.
  assert (Hseq : forall ds : list dty, Forall (fun d => if occupies d then run c (de c d) [] = OErr ERead else exists v, run c (de c d) [] = OOk v []) ds ->
    if existsb occupies ds then run c (sequence (map (de c) ds)) [] = OErr ERead
    else exists l, run c (sequence (map (de c) ds)) [] = OOk l []).
  { induction 1 as [|d ds Hd _ IH]; cbn [existsb map sequence]; [eexists; reflexivity|].
    rewrite run_bind. destruct (occupies d); cbn [orb]; [rewrite Hd; reflexivity|]. destruct Hd as (v & ->); cbn [obind].
    rewrite run_bind. destruct (existsb occupies ds); [rewrite IH; reflexivity|]. destruct IH as (l & ->); cbn [obind run].
    eexists; reflexivity. }
  intros d; induction d using dty_ind2; cbn [wf_dty occupies]; intros Hwf; try discriminate; cbn [de]; try reflexivity;
    try (eexists; reflexivity).
  - specialize (IHd Hwf). rewrite run_pmap. destruct (occupies d); [rewrite IHd; reflexivity|].
    destruct IHd as (v & ->); eexists; reflexivity.
  - rewrite forallb_forall in Hwf. rewrite run_pmap.
    assert (HF : Forall (fun d => if occupies d then run c (de c d) [] = OErr ERead else exists v, run c (de c d) [] = OOk v []) ds).
    { rewrite Forall_forall in H |- *. intros x Hx; apply (H x Hx), Hwf, Hx. }
    apply Hseq in HF. destruct (existsb occupies ds); [rewrite HF; reflexivity|]. destruct HF as (l & ->); eexists; reflexivity.
  - rewrite forallb_forall in Hwf. rewrite run_pmap.
    assert (HF : Forall (fun d => if occupies d then run c (de c d) [] = OErr ERead else exists v, run c (de c d) [] = OOk v []) ds).
    { rewrite Forall_forall in H |- *. intros x Hx; apply (H x Hx), Hwf, Hx. }
    apply Hseq in HF. destruct (existsb occupies ds); [rewrite HF; reflexivity|]. destruct HF as (l & ->); eexists; reflexivity.
  - apply andb_prop in Hwf as [Hwf Hfs]. apply andb_prop in Hwf as [Hk Hnd].
    destruct (list_eq_dec string_dec keys (map fst fs)) as [->|]; [|discriminate].
    apply nodupb_NoDup in Hnd. rewrite forallb_forall in Hfs.
    pose proof (run_de_struct c fs [] Hnd) as R. cbn [de] in R. rewrite R, run_pmap. clear R.
    assert (HF : Forall (fun d => if occupies d then run c (de c d) [] = OErr ERead else exists v, run c (de c d) [] = OOk v []) (map snd fs)).
    { apply Forall_map. rewrite Forall_forall in H |- *. intros x Hx; apply (H x Hx), Hfs, Hx. }
    apply Hseq in HF. rewrite map_map in HF.
    assert (E : existsb occupies (map snd fs) = existsb (fun nf => occupies (snd nf)) fs).
    { clear. induction fs as [|x fs IH]; [reflexivity|]. cbn [map existsb]. rewrite IH; reflexivity. }
    rewrite E in HF.
    destruct (existsb (fun nf => occupies (snd nf)) fs); [rewrite HF; reflexivity|]. destruct HF as (l & ->); eexists; reflexivity.
Qed.

Lemma de_local c d s v r : usize_bits c = 64 -> bytes_ok s -> run c (de c d) s = OOk v r ->
  exists u, s = u ++ r /\ (forall t, run c (de c d) (u ++ t) = OOk v t) /\
    (forall u1 x t1, u = u1 ++ x :: t1 -> run c (de c d) u1 = OErr ERead).
Proof.
  intros Hc Hs H. destruct (local_de c d Hc s v r Hs H) as (u & -> & Hp & Hq).
  exists u. split; [reflexivity|]. split; [exact Hp|]. intros u1 x t1 E. eapply Hq; exact E.
Qed.

Lemma app_eq_nil_r {A} (a b : list A) : a ++ b = b -> a = [].
Proof. intros H. apply (f_equal (@length A)) in H. rewrite app_length in H. destruct a; [reflexivity|cbn [length] in H; lia]. Qed.
(** Enum indices: what the u16 reader makes of a u32 varint of three bytes or more. *)
Lemma u16_of_u32 c e i rest : 16384 <= i -> i < 2 ^ 32 ->
  exists j extra, run c (dec_u16 e) (enc_u32 i ++ rest) = OOk j (extra ++ rest) /\
    (i < 2 ^ 21 -> j = i / 32 /\ extra = []) /\ (2 ^ 21 <= i -> extra <> []) /\ j < 2 ^ 16.
Proof.
  intros H1 H2. rewrite enc_u32_spec by exact H2.
  assert (Hm : varint_m 4) by (right; left; reflexivity).
  assert (H2' : i < 2 ^ (8 * N.of_nat 4)) by exact H2.
  destruct (varint_bytes_shape 4 i Hm H2') as (p & t & E & Hp & Ht & Hl & Hv).
  pose proof (varint_bytes_length_iff 4 i 1 Hm H2' ltac:(lia)) as L1.
  pose proof (varint_bytes_length_iff 4 i 2 Hm H2' ltac:(lia)) as L2.
  change (2 ^ (7 * (N.of_nat 1 + 1))) with 16384 in L1. change (2 ^ (7 * (N.of_nat 2 + 1))) with (2 ^ 21) in L2.
  rewrite E in *. cbn [length] in L1, L2.
  assert (Hlen : (2 <= length t)%nat) by (destruct L1 as [L1 _]; destruct (Nat.le_gt_cases 2 (length t)); [assumption|]; specialize (L1 ltac:(lia)); lia).
  assert (Hlo : (2 <= leading_ones p)%nat) by (unfold varint_extra in Hl; lia).
  assert (Hx : varint_extra 2 p = 2%nat) by (unfold varint_extra; lia).
  assert (Ht2 : takeN (N.of_nat 2) (t ++ rest) = takeN (N.of_nat 2) t).
  { rewrite !takeN_firstn, firstn_app. change (N.to_nat (N.of_nat 2)) with 2%nat.
    replace (2 - length t)%nat with 0%nat by lia. cbn [firstn]. apply app_nil_r. }
  assert (Hd2 : dropN (N.of_nat 2) (t ++ rest) = dropN (N.of_nat 2) t ++ rest).
  { rewrite !dropN_skipn, skipn_app. change (N.to_nat (N.of_nat 2)) with 2%nat.
    replace (2 - length t)%nat with 0%nat by lia. reflexivity. }
  exists (le_value (takeN (N.of_nat 2) t)), (dropN (N.of_nat 2) t).
  split; [|split; [|split]].
  - cbn [app]. rewrite dec_u16_run.
    + cbn [varint_run]. rewrite Hx, Ht2, Hd2, lenN_app. unfold varint_value.
      destruct (Nat.ltb_spec (leading_ones p) 2); [lia|].
      destruct (N.ltb_spec (lenN t + lenN rest) (N.of_nat 2)); [unfold lenN in *; lia|]. reflexivity.
    + split; [exact Hp|]. rewrite Hx, Ht2. apply Forall_takeN, Ht.
  - intros H21. destruct L2 as [_ L2]. specialize (L2 H21).
    assert (Hlt : lenN t = N.of_nat 2) by (unfold lenN; lia).
    rewrite dropN_all, takeN_all by lia. split; [|reflexivity].
    assert (Hk : leading_ones p = 2%nat) by (unfold varint_extra in Hl; unfold lenN in Hlt; lia).
    unfold varint_value in Hv. rewrite Hk in Hv. cbn [Nat.ltb Nat.leb] in Hv.
    change (2 ^ (7 - N.of_nat 2)) with 32 in Hv. rewrite <- Hv.
    rewrite (N.mul_comm 32), N.div_add by lia. rewrite (N.div_small (p mod 32)) by (apply N.mod_lt; lia). lia.
  - intros H21 Hd. destruct L2 as [L2 _].
    assert (lenN (dropN (N.of_nat 2) t) = 0) by (rewrite Hd; reflexivity). rewrite lenN_dropN in H.
    assert (i < 2 ^ 21) by (apply L2; unfold lenN in H; lia). lia.
  - assert (Hb : bytes_ok (takeN (N.of_nat 2) t)) by (apply Forall_takeN, Ht).
    apply le_value_bound in Hb. rewrite lenN_takeN in Hb. replace (N.min (N.of_nat 2) (lenN t)) with 2 in Hb; [exact Hb|unfold lenN; lia].
Qed.
Definition unit_enum (n : N) : dty := DEnum (repeat (KUnit, DUnit) (N.to_nat n)).
Lemma unit_enum_pick n j : j < n -> pickN (repeat (KUnit, DUnit) (N.to_nat n)) j = Some (KUnit, DUnit).
Proof.
  intros H. destruct (pickN (repeat (KUnit, DUnit) (N.to_nat n)) j) as [kd|] eqn:E.
  - apply pickN_some in E as [Hin _]. apply repeat_spec in Hin; subst; reflexivity.
  - apply pickN_none in E. unfold lenN in E. rewrite repeat_length in E. lia.
Qed.
Lemma unit_enum_ty c n i : i < n -> has_ty c (unit_enum n) (SUnitVariant i) = true.
Proof. intros H; cbn [has_ty unit_enum]. cbv zeta. rewrite pickN_map, unit_enum_pick by exact H. reflexivity. Qed.
Lemma unit_enum_small c n i rest : wf_cfg c -> 4096 <= heap_limit c -> i < n -> i < 16384 ->
  run c (de c (unit_enum n)) (wbytes (ser (SUnitVariant i)) ++ rest) = OOk (SUnitVariant i) rest.
Proof.
  intros Hc Hh Hi Hs. cbn [ser ser_u32 wr wbytes unit_enum de]. rewrite app_nil_r.
  rewrite <- (app_nil_r (enc_u32 i)).
  apply (parses_enum c _ i (fun i => pmap (variant_sval KUnit i) (de c DUnit))); [exact Hs| |apply (parses_ret c ERead (SUnitVariant i))].
  rewrite pickN_map, unit_enum_pick by exact Hi. reflexivity.
Qed.
Lemma unit_enum_mid c n i rest : 16384 <= i -> i < 2 ^ 21 -> i < n ->
  run c (de c (unit_enum n)) (wbytes (ser (SUnitVariant i)) ++ rest) = OOk (SUnitVariant (i / 32)) rest.
Proof.
  intros H1 H2 Hn. cbn [ser ser_u32 wr wbytes unit_enum de]. rewrite app_nil_r.
  destruct (u16_of_u32 c ERead i rest H1) as (j & extra & E & Ha & _); [eapply N.lt_trans; [exact H2|reflexivity]|].
  destruct (Ha H2) as [-> ->]. unfold de_enum, de_u16. rewrite run_bind, E; cbn [obind app].
  rewrite pickN_map, unit_enum_pick; [reflexivity|].
  eapply N.le_lt_trans; [|exact Hn]. apply N.div_le_upper_bound; lia.
Qed.
(** A variant of index 16384 or more never reads back. *)
Lemma variant_sval_index k j v : variant_index (variant_sval k j v) = Some j.
Proof. destruct k; [reflexivity..| |]; destruct v; reflexivity. Qed.
Lemma variant_head v i : variant_index v = Some i -> exists t, wbytes (ser v) = enc_u32 i ++ t.
Proof.
  destruct v; cbn [variant_index]; intros H; try discriminate; injection H as ->; cbn [ser]; unfold ser_u32;
    rewrite ?wbytes_wseq_done by reflexivity; cbn [wbytes wr]; rewrite ?app_nil_r; eexists; [symmetry; apply app_nil_r|reflexivity..].
Qed.
Lemma enum_large_lost c vs v i s w r : 16384 <= i -> i < 2 ^ 32 -> variant_index v = Some i ->
  run c (de c (DEnum vs)) (wbytes (ser v) ++ s) = OOk w r ->
  variant_index w <> Some i /\ (i < 2 ^ 21 -> variant_index w = Some (i / 32)).
Proof.
  intros H1 H2 Hv. destruct (variant_head v i Hv) as (t & ->). rewrite <- app_assoc. cbn [de]. unfold de_enum, de_u16. rewrite run_bind.
  destruct (u16_of_u32 c ERead i (t ++ s) H1 H2) as (j & extra & E & Ha & Hb & Hj). rewrite E; cbn [obind]. rewrite pickN_map.
  destruct (pickN vs j) as [kd|] eqn:Ep; cbn [option_map]; [|discriminate].
  intros H; apply run_pmap_ok in H as (x & _ & ->). rewrite variant_sval_index. split.
  - intros H; injection H as ->. destruct (N.lt_ge_cases i (2 ^ 21)) as [H|H]; [|lia].
    destruct (Ha H) as [Hi _]. assert (i / 32 < i) by (apply N.div_lt; lia). lia.
  - intros H. destruct (Ha H) as [-> _]; reflexivity.
Qed.

(** Sequences and maps of unknown length. *)
Lemma wsize_concat {A} (f : A -> wprog) l : Forall (fun a => wresult (f a) = WeOk) l ->
  wsize (wconcat (map f l)) = sumN (fun a => wsize (f a)) l.
Proof.
  intros H. unfold wsize at 1. rewrite (proj2 (wconcat_ok f l H)), lenN_concat, sumN_map. reflexivity.
Qed.
Lemma wsize_wseq_ok a b : wresult a = WeOk -> wsize (wseq a b) = wsize a + wsize b.
Proof. intros H; unfold wsize. rewrite wbytes_wseq_done, lenN_app by exact H. reflexivity. Qed.
Lemma enc_u64_pos n : n < 2 ^ 64 -> 1 <= lenN (enc_u64 n).
Proof.
  intros H. rewrite enc_u64_spec by exact H.
  destruct (varint_bytes_shape 8 n (or_intror (or_intror eq_refl)) H) as (p & t & -> & _). rewrite lenN_cons. lia.
Qed.
Lemma seq_none_lost c d n l rest : wf_cfg c -> 4096 <= heap_limit c -> wf_dty d = true ->
  Forall (fun v => wresult (ser v) = WeOk) l -> bytes_ok (wbytes (ser (SSeq None l)) ++ rest) ->
  run c (de c (DVec d)) (wbytes (ser (SSeq None l)) ++ rest) <> OOk (SSeq n l) rest.
Proof.
  intros Hw Hh Hd HF Hb H.
  assert (n = Some (lenN l) /\ lenN l < 2 ^ 64) as [-> Hu].
  { cbn [de] in H. apply run_pmap_ok in H as (l' & H & E). injection E as -> <-. split; [reflexivity|].
    eapply N.lt_le_trans; [|exact (wf_cfg_64 c Hw)].
    apply (yields_vec c (de c d) (fun _ => True) ltac:(intros ? ? ? ? ?; exact I) _ _ _ Hb H). }
  apply (reencode c (DVec d) Hw Hh Hd) in H as (k & Ek & Hk); [|exact Hb].
  rewrite lenN_app in Ek. fold (wsize (ser (SSeq None l))) in Ek. unfold vsize in Hk. cbn [ser ser_len wseq] in *.
  unfold ser_u64 in Hk. rewrite wsize_wseq_ok, wsize_wr in Hk by reflexivity.
  pose proof (enc_u64_pos _ Hu). lia.
Qed.
Lemma map_none_lost c d n l rest : wf_cfg c -> 4096 <= heap_limit c -> wf_dty d = true ->
  wresult (ser (SMap None l)) = WeOk -> bytes_ok (wbytes (ser (SMap None l)) ++ rest) ->
  run c (de c (DMap d)) (wbytes (ser (SMap None l)) ++ rest) <> OOk (SMap n l) rest.
Proof.
  intros Hw Hh Hd HF Hb H.
  assert (n = Some (lenN l) /\ lenN l < 2 ^ 64) as [-> Hu].
  { cbn [de] in H. apply run_pmap_ok in H as (l' & H & E). injection E as -> ->. rewrite lenN_map. split; [reflexivity|].
    eapply N.lt_le_trans; [|exact (wf_cfg_64 c Hw)].
    apply (yields_map c (de c d) (fun _ => True) Hw ltac:(intros ? ? ? ? ?; exact I) _ _ _ Hb H). }
  apply (reencode c (DMap d) Hw Hh Hd) in H as (k & Ek & Hk); [|exact Hb].
  rewrite lenN_app in Ek. fold (wsize (ser (SMap None l))) in Ek. unfold vsize in Hk. cbn [ser ser_len wseq] in *.
  unfold ser_u64 in Hk. rewrite wsize_wseq_ok, wsize_wr in Hk by reflexivity.
  pose proof (enc_u64_pos _ Hu). lia.
Qed.

(** Structs and tuples. *)
Lemma concat_wire {A} (f : A -> wprog) l : wresult (wconcat (map f l)) = WeOk ->
  Forall (fun a => wresult (f a) = WeOk) l /\ wbytes (wconcat (map f l)) = concat (map (fun a => wbytes (f a)) l).
Proof.
  intros H; apply wresult_wconcat_ok_iff in H. apply Forall_map in H. split; [exact H|].
  apply (wconcat_ok f l H).
Qed.
Lemma struct_tuple c fs s : NoDup (map fst fs) ->
  run c (de c (DStruct (map fst fs) fs)) s =
  match run c (de c (DTuple (map snd fs))) s with
  | OOk (STuple l) r => OOk (SStruct (combine (map fst fs) l)) r
  | OOk v r => OOk v r
  | OErr e => OErr e
  | OPanic p => OPanic p
  end.
Proof.
  intros Hnd. rewrite run_de_struct by exact Hnd. cbn [de]. rewrite !run_pmap, map_map.
  destruct (run c (sequence _) s); reflexivity.
Qed.
Lemma newtype_transparent c d s :
  run c (de c (DNewtypeStruct d)) s = match run c (de c d) s with
    OOk v r => OOk (SNewtypeStruct v) r | OErr e => OErr e | OPanic p => OPanic p end.
Proof. cbn [de]. rewrite run_pmap. destruct (run c (de c d) s); reflexivity. Qed.

(** Booleans, options, floats. *)
Lemma bool_byte c b t : run c (de c DBool) (b :: t) =
  if b =? 0 then OOk (SBool false) t else if b =? 1 then OOk (SBool true) t else OErr ERead.
Proof.
  cbn [de]. rewrite run_pmap. unfold de_bool. rewrite run_bind. cbn [run de_byte].
  rewrite lenN_cons. destruct (N.ltb_spec (lenN t + 1) 1); [lia|].
  change (b :: t) with ([b] ++ t). rewrite takeN_app_n, dropN_app_n by reflexivity. cbn [at_ nth N.to_nat run obind].
  change (at_ [b] 0) with b. destruct (b =? 0); [reflexivity|]. destruct (b =? 1); reflexivity.
Qed.
Lemma option_byte c d b t : run c (de c (DOption d)) (b :: t) =
  if b =? 0 then OOk SNone t
  else if b =? 1 then match run c (de c d) t with OOk v r => OOk (SSome v) r | OErr e => OErr e | OPanic p => OPanic p end
  else OErr ERead.
Proof.
  pose proof (bool_byte c b t) as H. cbn [de] in H. rewrite run_pmap in H.
  cbn [de]. rewrite run_pmap. unfold de_option. rewrite run_bind.
  destruct (run c de_bool (b :: t)) as [x r|e|q]; cbn [obind] in H |- *.
  - destruct (b =? 0); [injection H as -> ->; reflexivity|]. destruct (b =? 1); [|discriminate].
    injection H as -> ->. rewrite run_pmap. destruct (run c (de c d) t); reflexivity.
  - destruct (b =? 0); [discriminate|]. destruct (b =? 1); [discriminate|]. injection H as ->; reflexivity.
  - destruct (b =? 0); [discriminate|]. destruct (b =? 1); discriminate.
Qed.
Lemma float_bits c n (wrap : N -> sval) bs rest : bytes_ok bs -> length bs = n ->
  run c (pmap wrap (ReadExact (N.of_nat n) ERead (fun b => Ret (of_le b)))) (bs ++ rest) =
    OOk (wrap (le_value bs)) rest /\ le_digits n (le_value bs) = bs.
Proof.
  intros Hb <-. split.
  - rewrite run_pmap. cbn [run]. rewrite lenN_app. destruct (N.ltb_spec (lenN bs + lenN rest) (N.of_nat (length bs))) as [H|H]; [unfold lenN in H; lia|].
    change (N.of_nat (length bs)) with (lenN bs). rewrite takeN_app, dropN_app, of_le_value. reflexivity.
  - clear rest. induction Hb as [|b bs Hb Hbs IH]; [reflexivity|]. cbn [length le_value].
    unfold le_digits. cbn [seq map]. f_equal.
    + change (256 ^ N.of_nat 0) with 1. rewrite N.div_1_r, N.mul_comm, N.mod_add by lia.
      apply N.mod_small; exact Hb.
    + rewrite <- seq_shift, map_map. rewrite <- IH at 2. unfold le_digits. apply map_ext. intros i. f_equal.
      rewrite Nat2N.inj_succ, N.pow_succ_r', <- N.div_div by (first [lia | apply N.pow_nonzero; lia]).
      f_equal. rewrite N.mul_comm, N.div_add, N.div_small by (first [exact Hb | lia]). lia.
Qed.

(** Requests for 128-bit numbers, borrowed and self-describing data. *)
(** Element counts. *)
Lemma vec_count c d s l r : wf_dty d = true -> occupies d = true -> bytes_ok s ->
  run c (de c (DVec d)) s = OOk (SSeq (Some (lenN l)) l) r -> (length l + length r <= length s)%nat.
Proof.
  intros Hd Ho Hs H. cbn [de] in H. apply run_pmap_ok in H as (l' & H & E). injection E as _ ->.
  apply run_bind_ok in H as (n & s1 & H1 & H2).
  pose proof (run_rest _ _ _ _ _ Hs H1) as Hs1.
  apply run_suffix in H1 as (u & ->).
  assert (HC : consumes c (repeatN (as_usize c n) (de c d)) (fun l m => lenN l = as_usize c n /\ sumN (fun _ => 1) l <= m)).
  { apply consumes_repeatN, occupies_de; assumption. }
  apply HC in H2 as (m & Em & _ & Hm); [|exact Hs1].
  assert (Es : sumN (fun _ : sval => 1) l' = lenN l').
  { clear. induction l' as [|a l IH]; [reflexivity|]. rewrite lenN_cons; cbn [sumN]; lia. }
  rewrite app_length. unfold lenN in *. lia.
Qed.
Lemma map_count c d s m r : bytes_ok s ->
  run c (de c (DMap d)) s = OOk (SMap (Some (lenN m)) m) r -> (length m + length r <= length s)%nat.
Proof.
  intros Hs H. cbn [de] in H. apply run_pmap_ok in H as (l' & H & E). injection E as _ ->.
  apply run_bind_ok in H as (n & s1 & H1 & H2).
  pose proof (run_rest _ _ _ _ _ Hs H1) as Hs1.
  apply run_suffix in H1 as (u & ->). unfold de_map_n in H2.
  assert (HC : consumes c (foldN (as_usize c n) (fun m => k <- de_string c ;; v <- de c d ;; Ret (map_insert k v m)) [])
     (fun (m : list (list N * sval)) k => lenN m <= k)).
  { apply (consumes_foldN c (as_usize c n) _ [] (fun _ (m : list (list N * sval)) k => lenN m <= k)); [cbn; lia|].
    intros i m k Hm.
    eapply consumes_bind with (R := fun _ j => 1 <= j).
    - unfold de_string. apply consumes_then. unfold dec_u64, dec_prefix. cbn [bind]. apply consumes_read; lia.
    - cbv beta. intros key j Hj. eapply consumes_bind; [apply consumes_any|]. cbv beta. intros v j2 _. apply consumes_Ret.
      pose proof (map_insert_length key v m). unfold lenN in *. lia. }
  apply HC in H2 as (k & Ek & Hk); [|exact Hs1].
  rewrite app_length, map_length. unfold lenN in *. lia.
Qed.
Lemma iter_unit c n acc s :
  run c (iter n (fun acc => a <- Ret SUnit ;; Ret (a :: acc)) acc) s = OOk (repeat SUnit n ++ acc) s.
Proof.
  revert acc; induction n as [|n IH]; intros acc; [reflexivity|]. rewrite run_iter_S. cbn [bind run obind].
  rewrite IH. f_equal. change (repeat SUnit (S n)) with (SUnit :: repeat SUnit n).
  rewrite repeat_cons, <- app_assoc. reflexivity.
Qed.
Lemma unit_vec c n rest : usize_bits c = 64 -> n < 2 ^ 64 ->
  run c (de c (DVec DUnit)) (enc_u64 n ++ rest) = OOk (SSeq (Some n) (repeat SUnit (N.to_nat n))) rest.
Proof.
  intros Hc Hn. cbn [de]. rewrite run_pmap. unfold de_vec. rewrite run_bind.
  rewrite (proj1 (parses_u64 c ERead n Hn)). cbn [obind]. rewrite as_usize_id by (rewrite Hc; exact Hn).
  unfold repeatN. rewrite run_bind, run_foldN. rewrite (iter_unit c (N.to_nat n) [] rest). cbn [obind run]. rewrite app_nil_r.
  assert (E : rev (repeat SUnit (N.to_nat n)) = repeat SUnit (N.to_nat n)).
  { generalize (N.to_nat n) as k. induction k as [|k IH]; [reflexivity|]. cbn [repeat rev]. rewrite IH. symmetry. apply repeat_cons. }
  rewrite E. do 2 f_equal. unfold lenN. rewrite repeat_length, N2Nat.id. reflexivity.
Qed.

(** What can be serialized. *)
Section SvalInd.
  Variable P : sval -> Prop.
  Hypothesis Hatom : forall v, match v with
    | SSome _ | SNewtypeStruct _ | SNewtypeVariant _ _ | SSeq _ _ | STuple _ | STupleStruct _ | STupleVariant _ _
    | SMap _ _ | SStruct _ | SStructVariant _ _ => True
    | _ => P v end.
  Hypothesis Hsome : forall v, P v -> P (SSome v).
  Hypothesis Hns : forall v, P v -> P (SNewtypeStruct v).
  Hypothesis Hnv : forall i v, P v -> P (SNewtypeVariant i v).
  Hypothesis Hseq : forall n l, Forall P l -> P (SSeq n l).
  Hypothesis Htup : forall l, Forall P l -> P (STuple l).
  Hypothesis Hts : forall l, Forall P l -> P (STupleStruct l).
  Hypothesis Htv : forall i l, Forall P l -> P (STupleVariant i l).
  Hypothesis Hmap : forall n l, Forall (fun kv => P (fst kv) /\ P (snd kv)) l -> P (SMap n l).
  Hypothesis Hst : forall l, Forall (fun kv => P (snd kv)) l -> P (SStruct l).
  Hypothesis Hsv : forall i l, Forall (fun kv => P (snd kv)) l -> P (SStructVariant i l).
  Fixpoint sval_ind2 (v : sval) : P v :=
    let lst := fix lst (l : list sval) : Forall P l :=
      match l with [] => Forall_nil _ | x :: t => Forall_cons _ (sval_ind2 x) (lst t) end in
    let prs := fix prs (l : list (string * sval)) : Forall (fun kv => P (snd kv)) l :=
      match l with [] => Forall_nil _ | x :: t => Forall_cons _ (sval_ind2 (snd x)) (prs t) end in
    let kvs := fix kvs (l : list (sval * sval)) : Forall (fun kv => P (fst kv) /\ P (snd kv)) l :=
      match l with [] => Forall_nil _ | x :: t => Forall_cons _ (conj (sval_ind2 (fst x)) (sval_ind2 (snd x))) (kvs t) end in
    match v with
    | SSome v => Hsome v (sval_ind2 v)
    | SNewtypeStruct v => Hns v (sval_ind2 v)
    | SNewtypeVariant i v => Hnv i v (sval_ind2 v)
    | SSeq n l => Hseq n l (lst l)
    | STuple l => Htup l (lst l)
    | STupleStruct l => Hts l (lst l)
    | STupleVariant i l => Htv i l (lst l)
    | SMap n l => Hmap n l (kvs l)
    | SStruct l => Hst l (prs l)
    | SStructVariant i l => Hsv i l (prs l)
    | v => Hatom v
    end.
End SvalInd.
Lemma forall_fold {A} (f g : A -> Prop) l : Forall (fun x => f x <-> g x) l ->
  (Forall f l <-> fold_right (fun x P => g x /\ P) True l).
Proof.
  induction 1 as [|x l Hx _ IH]; cbn [fold_right]; [split; constructor|]. rewrite Forall_cons_iff, Hx, IH. reflexivity.
Qed.
Lemma ser_ok_iff v : wresult (ser v) = WeOk <-> serializable v.
Proof.
  assert (Hl : forall l, Forall (fun x => wresult (ser x) = WeOk <-> serializable x) l ->
    (wresult (wconcat (map ser l)) = WeOk <-> fold_right (fun x P => serializable x /\ P) True l)).
  { intros l H. rewrite wresult_wconcat_ok_iff, Forall_map. apply (forall_fold _ _ l H). }
  assert (Hp : forall l : list (string * sval), Forall (fun kv => wresult (ser (snd kv)) = WeOk <-> serializable (snd kv)) l ->
    (wresult (wconcat (map (fun kv => ser (snd kv)) l)) = WeOk <-> fold_right (fun kv P => serializable (snd kv) /\ P) True l)).
  { intros l H. rewrite wresult_wconcat_ok_iff, Forall_map. apply (forall_fold _ (fun kv => serializable (snd kv)) l H). }
  revert v; apply sval_ind2.
  - intros v; destruct v; try exact I; cbn [serializable]; split; try (intros; exact I); try reflexivity; try discriminate; intros [].
  - intros v IHv; cbn [serializable]. cbn [ser]. rewrite wresult_wseq_ok_iff, IHv. split; [tauto|split; [reflexivity|assumption]].
  - intros v IHv. exact IHv.
  - intros i v IHv; cbn [serializable]. cbn [ser]. rewrite wresult_wseq_ok_iff, IHv. split; [tauto|split; [reflexivity|assumption]].
  - intros n l H; cbn [serializable]. cbn [ser]. rewrite wresult_wseq_ok_iff, Hl by exact H. split; [tauto|split; [destruct n; reflexivity|assumption]].
  - intros l H. exact (Hl l H).
  - intros l H. exact (Hl l H).
  - intros i l H; cbn [serializable]. cbn [ser]. rewrite wresult_wseq_ok_iff, Hl by exact H. split; [tauto|split; [reflexivity|assumption]].
  - intros n l H; cbn [serializable]. rewrite ser_map_ok_iff.
    rewrite (forall_fold _ (fun kv => (exists bs, fst kv = SStr bs) /\ serializable (snd kv)) l).
    + clear H. induction l as [|kv l IH]; cbn [fold_right]; [tauto|]. rewrite IH. tauto.
    + eapply Forall_impl; [|exact H]. cbv beta. intros kv [_ E]. rewrite E. reflexivity.
  - intros l H. exact (Hp l H).
  - intros i l H; cbn [serializable]. cbn [ser]. rewrite wresult_wseq_ok_iff, Hp by exact H. split; [tauto|split; [reflexivity|assumption]].
Qed.
