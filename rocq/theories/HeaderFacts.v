(** * Proofs about Header.v. *)
From Verif Require Import Base BaseFacts Varint VarintFacts SpecVarint Header SpecHeader SerdeSafe Consume SpecRequest PrimFacts.

Section HeaderInd.
  Variable P : header -> Prop.
  Hypothesis Hleaf : forall h, match h with HOptional _ | HArray _ | HMap _ | HTuple _ | HEnum _ => True | _ => P h end.
  Hypothesis Hopt : forall h, P h -> P (HOptional h).
  Hypothesis Harr : forall h, P h -> P (HArray h).
  Hypothesis Hmap : forall h, P h -> P (HMap h).
  Hypothesis Htup : forall hs, Forall P hs -> P (HTuple hs).
  Hypothesis Henum : forall hs, Forall P hs -> P (HEnum hs).
  Fixpoint header_ind2 (h : header) : P h :=
    let lst := fix lst (l : list header) : Forall P l :=
      match l with [] => Forall_nil _ | x :: t => Forall_cons _ (header_ind2 x) (lst t) end in
    match h with
    | HOptional h => Hopt h (header_ind2 h)
    | HArray h => Harr h (header_ind2 h)
    | HMap h => Hmap h (header_ind2 h)
    | HTuple hs => Htup hs (lst hs)
    | HEnum hs => Henum hs (lst hs)
    | h => Hleaf h
    end.
End HeaderInd.

Scheme header_wire_mind := Induction for header_wire Sort Prop
  with headers_wire_mind := Induction for headers_wire Sort Prop.
Combined Scheme header_wire_both from header_wire_mind, headers_wire_mind.

(** ** One step of the decoder *)
Fixpoint lookup_code (t : list (N * hkind)) (b : N) : option hkind :=
  match t with [] => None | (k, v) :: t => if b =? k then Some v else lookup_code t b end.
Lemma lookup_code_in t b k : NoDup (map fst t) -> (lookup_code t b = Some k <-> In (b, k) t).
Proof.
  induction t as [|[k' v] t IH]; cbn [map fst lookup_code In]; intros Hn; [split; [discriminate|intros []]|].
  inversion Hn as [|? ? Hi Hn']; subst. specialize (IH Hn'). destruct (N.eqb_spec b k') as [->|Hb].
  - split; [intros H; injection H as ->; left; reflexivity|]. intros [H|H]; [congruence|].
    exfalso; apply Hi. apply in_map_iff. exists (k', k); auto.
  - rewrite IH. split; [auto|]. intros [H|H]; [congruence|exact H].
Qed.
Lemma code_table_nodup : NoDup (map fst code_table).
Proof. cbn. repeat constructor; cbn; intuition discriminate. Qed.
Lemma code_in b k : lookup_code code_table b = Some k <-> In (b, k) code_table.
Proof. apply lookup_code_in, code_table_nodup. Qed.

Definition hde_members (c : cfg) (d : nat) (mk : list header -> header) : prog header :=
  size <- dec_u16 EIo ;; Alloc (size * size_of_header c) (pmap mk (repeatN size (hde c d))).
Definition hde_kind (c : cfg) (d : nat) (o : option hkind) : prog header :=
  match o with
  | Some (Leaf h) => Ret h
  | Some (Box f) => pmap f (hde c d)
  | Some (Members f) => hde_members c d f
  | None => Fail EInvalid
  end.
Lemma run_hde_S c d b s : run c (hde c (S d)) (b :: s) = run c (hde_kind c d (lookup_code code_table b)) s.
Proof.
  cbn [hde run]. rewrite lenN_cons. destruct (N.ltb_spec (lenN s + 1) 1); [lia|].
  change (b :: s) with ([b] ++ s). rewrite takeN_app_n, dropN_app_n by reflexivity.
  change (at_ [b] 0) with b. unfold code_table; cbn [lookup_code].
  unfold UNIT_CODE, OPTIONAL_CODE, BOOLEAN_CODE, UINT8_CODE, UINT16_CODE, UINT32_CODE, UINT64_CODE, INT8_CODE, INT16_CODE,
    INT32_CODE, INT64_CODE, FLOAT32_CODE, FLOAT64_CODE, BIG_UINT_CODE, BIG_INT_CODE, BIG_DECIMAL_CODE, STRING_CODE, BINARY_CODE,
    ARRAY_CODE, TUPLE_CODE, MAP_CODE, ENUM_CODE, DATE_CODE, DATETIME_CODE.
  repeat match goal with |- context [?x =? ?n] => destruct (x =? n); [reflexivity|] end. reflexivity.
Qed.
Lemma run_hde_nil c d : run c (hde c (S d)) [] = OErr EIo.
Proof. reflexivity. Qed.
Lemma run_hde_O c s : run c (hde c 0) s = OPanic PStack.
Proof. reflexivity. Qed.
Lemma allocs_hde_O c s : allocs c (hde c 0) s = [].
Proof. reflexivity. Qed.
Lemma allocs_hde_nil c d : allocs c (hde c (S d)) [] = [].
Proof. reflexivity. Qed.
Lemma allocs_hde_S c d b s : allocs c (hde c (S d)) (b :: s) = allocs c (hde_kind c d (lookup_code code_table b)) s.
Proof.
  cbn [hde allocs]. rewrite lenN_cons. destruct (N.ltb_spec (lenN s + 1) 1); [lia|].
  change (b :: s) with ([b] ++ s). rewrite takeN_app_n, dropN_app_n by reflexivity.
  change (at_ [b] 0) with b. unfold code_table; cbn [lookup_code].
  unfold UNIT_CODE, OPTIONAL_CODE, BOOLEAN_CODE, UINT8_CODE, UINT16_CODE, UINT32_CODE, UINT64_CODE, INT8_CODE, INT16_CODE,
    INT32_CODE, INT64_CODE, FLOAT32_CODE, FLOAT64_CODE, BIG_UINT_CODE, BIG_INT_CODE, BIG_DECIMAL_CODE, STRING_CODE, BINARY_CODE,
    ARRAY_CODE, TUPLE_CODE, MAP_CODE, ENUM_CODE, DATE_CODE, DATETIME_CODE.
  repeat match goal with |- context [?x =? ?n] => destruct (x =? n); [reflexivity|] end. reflexivity.
Qed.
Global Opaque hde.

(** ** Memory for one member vector *)
Lemma room_alloc c n : room c -> n < 2 ^ 16 -> alloc_result c (n * size_of_header c) = None.
Proof.
  intros [H1 H2] Hn. unfold alloc_result. change (2 ^ 16) with 65536 in Hn.
  assert (n * size_of_header c <= 65535 * size_of_header c) by (apply N.mul_le_mono_r; lia).
  destruct (N.ltb_spec (isize_max c) (n * size_of_header c)); [lia|].
  destruct (N.ltb_spec (heap_limit c) (n * size_of_header c)); [lia|reflexivity].
Qed.

(** ** The serializer writes the canonical form *)
Lemma hser_wire : forall h, wresult (hser h) = WeOk /\ (counts_fit h = true -> header_wire true (wbytes (hser h)) h).
Proof.
  assert (Hvec : forall hs, Forall (fun h => wresult (hser h) = WeOk /\ (counts_fit h = true -> header_wire true (wbytes (hser h)) h)) hs ->
     wresult (wconcat (map hser hs)) = WeOk /\
     (forallb counts_fit hs = true -> headers_wire true (wbytes (wconcat (map hser hs))) hs)).
  { induction 1 as [|h hs [Hh1 Hh2] _ [IH1 IH2]]; cbn [map forallb]; [split; [reflexivity|constructor]|].
    change (wconcat (hser h :: map hser hs)) with (wseq (hser h) (wconcat (map hser hs))).
    rewrite wresult_wseq, Hh1. split; [exact IH1|]. intros Hc; apply andb_prop in Hc as [Hc1 Hc2].
    rewrite wbytes_wseq_done by exact Hh1. constructor; auto. }
  assert (Hmem : forall b f hs, In (b, Members f) code_table -> wresult (wconcat (map hser hs)) = WeOk ->
    (forallb counts_fit hs = true -> headers_wire true (wbytes (wconcat (map hser hs))) hs) ->
    (lenN hs <? 2 ^ 16) && forallb counts_fit hs = true ->
    header_wire true (b :: enc_u16 (lenN hs mod 2 ^ 16) ++ wbytes (wconcat (map hser hs))) (f hs)).
  { intros b f hs Hb Hr Hw Hc. apply andb_prop in Hc as [Hc1 Hc2]. apply N.ltb_lt in Hc1.
    rewrite N.mod_small, enc_u16_spec by exact Hc1.
    destruct (varint_bytes_shape 2 (lenN hs) (or_introl eq_refl) Hc1) as (p & t & E & Hp & Ht & Hl & Hv).
    rewrite E. apply hw_members; auto. }
  apply header_ind2.
  - intros h; destruct h; try exact I; (split; [reflexivity|intros _; apply hw_leaf; cbn; tauto]).
  - intros h [H1 H2]; cbn [hser counts_fit]. cbv zeta. split; [rewrite wresult_wseq; cbn [wr wresult]; exact H1|].
    intros Hc; cbn [wr wseq wbytes app]. apply hw_box; [cbn; tauto|auto].
  - intros h [H1 H2]; cbn [hser counts_fit]. cbv zeta. split; [rewrite wresult_wseq; cbn [wr wresult]; exact H1|].
    intros Hc; cbn [wr wseq wbytes app]. apply hw_box; [cbn; tauto|auto].
  - intros h [H1 H2]; cbn [hser counts_fit]. cbv zeta. split; [rewrite wresult_wseq; cbn [wr wresult]; exact H1|].
    intros Hc; cbn [wr wseq wbytes app]. apply hw_box; [cbn; tauto|auto].
  - intros hs HF. apply Hvec in HF as [H1 H2]. cbn [hser counts_fit]. cbv zeta.
    split; [rewrite !wresult_wseq; cbn [wr wresult]; exact H1|].
    intros Hc; cbn [wr wseq wbytes app]. apply (Hmem TUPLE_CODE HTuple hs); auto. cbn; tauto.
  - intros hs HF. apply Hvec in HF as [H1 H2]. cbn [hser counts_fit]. cbv zeta.
    split; [rewrite !wresult_wseq; cbn [wr wresult]; exact H1|].
    intros Hc; cbn [wr wseq wbytes app]. apply (Hmem ENUM_CODE HEnum hs); auto. cbn; tauto.
Qed.

Lemma wire_weaken :
  (forall u h, header_wire true u h -> header_wire false u h) /\
  (forall u hs, headers_wire true u hs -> headers_wire false u hs).
Proof.
  apply (header_wire_both true (fun u h _ => header_wire false u h) (fun u hs _ => headers_wire false u hs)).
  - intros; apply hw_leaf; assumption.
  - intros; eapply hw_box; eassumption.
  - intros; eapply hw_members; try eassumption. discriminate.
  - constructor.
  - intros; constructor; assumption.
Qed.
Lemma wire_det_fun b k1 k2 : In (b, k1) code_table -> In (b, k2) code_table -> k1 = k2.
Proof. rewrite <- !code_in. congruence. Qed.

(** ** Sizes *)
Lemma list_max_le_sum l : (list_max l <= list_sum l)%nat.
Proof. induction l as [|a l IH]; cbn [list_max list_sum fold_right]; [lia|]. unfold list_max, list_sum in IH. lia. Qed.
Lemma hdepth_hsize : forall h, (hdepth h <= hsize h)%nat.
Proof.
  assert (H : forall hs, Forall (fun h => (hdepth h <= hsize h)%nat) hs -> (list_max (map hdepth hs) <= list_sum (map hsize hs))%nat).
  { induction 1 as [|h hs Hh _ IH]; [cbn; lia|]. cbn [map list_max list_sum fold_right].
    unfold list_max, list_sum in IH. lia. }
  apply header_ind2.
  - intros h; destruct h; try exact I; cbn; lia.
  - intros h Hh; cbn [hdepth hsize]; lia.
  - intros h Hh; cbn [hdepth hsize]; lia.
  - intros h Hh; cbn [hdepth hsize]; lia.
  - intros hs Hh; cbn [hdepth hsize]. specialize (H hs Hh); lia.
  - intros hs Hh; cbn [hdepth hsize]. specialize (H hs Hh); lia.
Qed.
Lemma kind_box b f : In (b, Box f) code_table -> f = HOptional \/ f = HArray \/ f = HMap.
Proof.
  cbn. intros H. repeat (destruct H as [H|H]; [first [discriminate | injection H as <- <-; auto]|]). destruct H.
Qed.
Lemma kind_members b f : In (b, Members f) code_table -> f = HTuple \/ f = HEnum.
Proof.
  cbn. intros H. repeat (destruct H as [H|H]; [first [discriminate | injection H as <- <-; auto]|]). destruct H.
Qed.
Lemma kind_leaf b h : In (b, Leaf h) code_table ->
  hsize h = 1%nat /\ hdepth h = 1%nat /\ counts_fit h = true.
Proof.
  cbn. intros H. repeat (destruct H as [H|H]; [first [discriminate | injection H as <- <-; auto]|]). destruct H.
Qed.
Lemma wire_size canon :
  (forall u h, header_wire canon u h -> (hsize h <= length u)%nat /\ counts_fit h = true) /\
  (forall u hs, headers_wire canon u hs -> (list_sum (map hsize hs) <= length u)%nat /\ forallb counts_fit hs = true).
Proof.
  apply (header_wire_both canon (fun u h _ => (hsize h <= length u)%nat /\ counts_fit h = true)
     (fun u hs _ => (list_sum (map hsize hs) <= length u)%nat /\ forallb counts_fit hs = true)).
  - intros b h Hb. destruct (kind_leaf b h Hb) as (-> & _ & ->). cbn; auto.
  - intros b f u h Hb _ [IH1 IH2]. destruct (kind_box b f Hb) as [->|[->| ->]]; cbn [hsize counts_fit length]; split; try assumption; lia.
  - intros b f p t u hs Hb Hp Ht Hl Hv _ _ [IH1 IH2].
    assert (Hn : lenN hs < 2 ^ 16).
    { rewrite <- Hv. apply (varint_value_bound 2 p t (or_introl eq_refl) Hp Ht Hl). }
    apply N.ltb_lt in Hn.
    destruct (kind_members b f Hb) as [->| ->]; cbn [hsize counts_fit length app]; rewrite app_length, Hn, IH2; split; try reflexivity; lia.
  - cbn; auto.
  - intros u h v hs _ [IH1 IH2] _ [IH3 IH4]. cbn [map list_sum fold_right forallb]. rewrite app_length, IH2, IH4.
    unfold list_sum in *. split; [lia|reflexivity].
Qed.

(** ** Whatever the grammar describes is decoded *)
Lemma parses_u16_any c e p t n : p < 256 -> bytes_ok t -> length t = varint_extra 2 p -> varint_value 2 p t = n ->
  parses c e (dec_u16 e) (p :: t) n.
Proof.
  intros Hp Ht Hl Hv. assert (Hb : bytes_ok (p :: t)) by (constructor; assumption).
  assert (R : run c (dec_u16 e) (p :: t) = OOk n []).
  { rewrite dec_u16_run by (split; [exact Hp|apply Forall_takeN, Ht]). cbn [varint_run]. rewrite <- Hl.
    change (N.of_nat (length t)) with (lenN t). rewrite N.ltb_irrefl, takeN_all, dropN_all by lia. rewrite Hv; reflexivity. }
  apply (local_dec_u16 c e) in R as (u & E & P); [|exact Hb]. rewrite app_nil_r in E; subst; exact P.
Qed.
Lemma hde_S_parses c d b o u h : lookup_code code_table b = o -> parses c EIo (hde_kind c d o) u h ->
  parses c EIo (hde c (S d)) (b :: u) h.
Proof.
  intros Hb [H1 H2]; split.
  - intros t; cbn [app]. rewrite run_hde_S, Hb. apply H1.
  - intros u' x t' E. destruct u' as [|y u']; [apply run_hde_nil|]. cbn [app] in E; injection E as <- E.
    rewrite run_hde_S, Hb. eapply H2; exact E.
Qed.
Lemma wire_parses c canon : room c ->
  (forall u h, header_wire canon u h -> forall d, (hdepth h <= d)%nat -> parses c EIo (hde c d) u h) /\
  (forall u hs, headers_wire canon u hs -> forall d, (list_max (map hdepth hs) <= d)%nat ->
     parses c EIo (rep (length hs) (hde c d)) u hs).
Proof.
  intros Hroom.
  apply (header_wire_both canon (fun u h _ => forall d, (hdepth h <= d)%nat -> parses c EIo (hde c d) u h)
    (fun u hs _ => forall d, (list_max (map hdepth hs) <= d)%nat -> parses c EIo (rep (length hs) (hde c d)) u hs)).
  - intros b h Hb d Hd. destruct (kind_leaf b h Hb) as (_ & E & _). destruct d as [|d]; [lia|].
    apply (hde_S_parses c d b (Some (Leaf h))); [apply code_in, Hb|apply parses_ret].
  - intros b f u h Hb _ IH d Hd. destruct d as [|d]; [destruct (kind_box b f Hb) as [->|[->| ->]]; cbn [hdepth] in Hd; lia|].
    apply (hde_S_parses c d b (Some (Box f))); [apply code_in, Hb|]. apply parses_pmap, IH.
    destruct (kind_box b f Hb) as [->|[->| ->]]; cbn [hdepth] in Hd; lia.
  - intros b f p t u hs Hb Hp Ht Hl Hv _ _ IH d Hd.
    assert (Hd' : (S (list_max (map hdepth hs)) <= d)%nat) by (destruct (kind_members b f Hb) as [->| ->]; exact Hd).
    destruct d as [|d]; [lia|]. apply (hde_S_parses c d b (Some (Members f))); [apply code_in, Hb|].
    cbn [hde_kind]. unfold hde_members. eapply parses_bind; [apply parses_u16_any; eassumption|].
    apply parses_Alloc.
    + apply room_alloc; [exact Hroom|]. rewrite <- Hv. apply (varint_value_bound 2 p t (or_introl eq_refl) Hp Ht Hl).
    + apply parses_pmap. eapply parses_ext; [intros; apply run_repeatN|]. unfold lenN; rewrite Nat2N.id. apply IH; lia.
  - intros d _. apply parses_ret.
  - intros u h v hs _ IH1 _ IH2 d Hd. cbn [map list_max fold_right] in Hd. unfold list_max in IH2.
    cbn [length rep]. eapply parses_bind; [apply IH1; lia|]. eapply parses_bind_ret; [apply IH2; lia|reflexivity].
Qed.

(** ** Whatever is decoded is described by the grammar *)
Lemma u16_wire c e s n r : bytes_ok s -> run c (dec_u16 e) s = OOk n r ->
  exists p t, s = (p :: t) ++ r /\ p < 256 /\ bytes_ok t /\ length t = varint_extra 2 p /\ varint_value 2 p t = n.
Proof.
  intros Hs H. rewrite dec_u16_run in H by (apply bytes_guard, Hs).
  apply varint_run_inv in H as (q & u & E & Hq & Hu & Hl & Hv); [|exact Hs]. exists q, u. subst; auto 10.
Qed.
Lemma hde_wire c : forall d s h r, bytes_ok s -> run c (hde c d) s = OOk h r -> exists u, s = u ++ r /\ header_wire false u h.
Proof.
  induction d as [|d IH]; intros s h r Hs H; [rewrite run_hde_O in H; discriminate|].
  assert (Hrep : forall n s hs r, bytes_ok s -> run c (rep n (hde c d)) s = OOk hs r ->
     length hs = n /\ exists u, s = u ++ r /\ headers_wire false u hs).
  { clear s h r Hs H. induction n as [|n IHn]; intros s hs r Hs H; cbn [rep] in H.
    - injection H as <- <-. split; [reflexivity|]. exists []; split; [reflexivity|constructor].
    - apply run_bind_ok in H as (h & r1 & H1 & H2). pose proof (run_rest _ _ _ _ _ Hs H1) as Hr1.
      apply IH in H1 as (u1 & -> & W1); [|exact Hs].
      apply run_bind_ok in H2 as (l & r2 & H2 & H3). injection H3 as <- <-.
      apply IHn in H2 as (Hl & u2 & -> & W2); [|exact Hr1].
      split; [cbn [length]; rewrite Hl; reflexivity|]. exists (u1 ++ u2). split; [apply app_assoc|constructor; assumption]. }
  destruct s as [|b s]; [rewrite run_hde_nil in H; discriminate|]. rewrite run_hde_S in H.
  inversion Hs as [|? ? Hb Hs']; subst.
  destruct (lookup_code code_table b) as [[h'|f|f]|] eqn:Ek; cbn [hde_kind] in H; [| | |discriminate].
  - injection H as <- <-. apply code_in in Ek. exists [b]. split; [reflexivity|constructor; exact Ek].
  - apply run_pmap_ok in H as (h' & H & ->). apply code_in in Ek. apply IH in H as (u & -> & W); [|exact Hs'].
    exists (b :: u). split; [reflexivity|]. apply hw_box; assumption.
  - apply code_in in Ek. unfold hde_members in H. apply run_bind_ok in H as (n & r1 & H1 & H2).
    apply u16_wire in H1 as (p & t & -> & Hp & Ht & Hl & Hv); [|exact Hs'].
    cbn [run] in H2. destruct (alloc_result c _); [discriminate|]. apply run_pmap_ok in H2 as (hs & H2 & ->).
    rewrite run_repeatN in H2. apply Hrep in H2 as (Hn & u & -> & W); [|apply Forall_app in Hs'; tauto].
    exists (b :: (p :: t) ++ u). split; [cbn [app]; rewrite <- app_assoc; reflexivity|].
    apply hw_members; auto; [|discriminate]. unfold lenN; lia.
Qed.

Lemma hde_accepts c d s h r : room c -> bytes_ok s -> (length s < d)%nat ->
  (run c (hde c d) s = OOk h r <-> exists u, s = u ++ r /\ header_wire false u h).
Proof.
  intros Hroom Hs Hd; split; [apply hde_wire, Hs|]. intros (u & -> & W).
  apply (proj1 (wire_parses c false Hroom) u h W). pose proof (proj1 (proj1 (wire_size false) u h W)).
  pose proof (hdepth_hsize h). rewrite app_length in Hd. lia.
Qed.

(** ** Failures *)
Lemma hde_ends c : room c -> forall d s, bytes_ok s ->
  match run c (hde c d) s with
  | OOk _ _ => True
  | OErr e => e = EIo \/ e = EInvalid
  | OPanic q => q = PStack /\ (d <= length s)%nat
  end.
Proof.
  intros Hroom. induction d as [|d IH]; intros s Hs; [rewrite run_hde_O; split; [reflexivity|lia]|].
  assert (Hrep : forall n s, bytes_ok s -> match run c (rep n (hde c d)) s with
     | OOk _ _ => True | OErr e => e = EIo \/ e = EInvalid | OPanic q => q = PStack /\ (d <= length s)%nat end).
  { clear s Hs. induction n as [|n IHn]; intros s Hs; cbn [rep run]; [exact I|]. rewrite run_bind.
    specialize (IH s Hs). destruct (run c (hde c d) s) as [h r|e|q] eqn:E; cbn [obind]; [|exact IH..].
    pose proof (run_rest _ _ _ _ _ Hs E) as Hr. apply run_suffix in E as (u & ->). rewrite run_bind.
    specialize (IHn r Hr). destruct (run c (rep n (hde c d)) r) as [l r2|e|q]; cbn [obind run]; [exact I|exact IHn|].
    rewrite app_length. split; [tauto|lia]. }
  destruct s as [|b s]; [rewrite run_hde_nil; left; reflexivity|]. rewrite run_hde_S.
  inversion Hs as [|? ? Hb Hs']; subst. cbn [length].
  destruct (lookup_code code_table b) as [[h'|f|f]|]; cbn [hde_kind run]; [exact I| | |right; reflexivity].
  - rewrite run_pmap. specialize (IH s Hs'). destruct (run c (hde c d) s) as [h r|e|q]; cbn [obind]; [exact I|exact IH|].
    split; [tauto|lia].
  - unfold hde_members. rewrite run_bind.
    pose proof (ends_u16 c (fun e => e = EIo \/ e = EInvalid) (fun _ => False) EIo (or_introl eq_refl) s Hs') as He.
    destruct (run c (dec_u16 EIo) s) as [n r|e|q] eqn:E; cbn [obind]; [|exact He|destruct He].
    pose proof (consumes_u16 c EIo s n r Hs' E) as (k & Ek & _ & _ & Hn).
    pose proof (run_rest _ _ _ _ _ Hs' E) as Hr. cbn [run]. rewrite room_alloc by assumption.
    rewrite run_pmap, run_repeatN. specialize (Hrep (N.to_nat n) r Hr).
    destruct (run c (rep (N.to_nat n) (hde c d)) r) as [l r2|e|q]; cbn [obind]; [exact I|exact Hrep|].
    split; [tauto|]. unfold lenN in Ek. lia.
Qed.

(** ** Recursion *)
Lemma hde_nested c n rest :
  run c (hde c n) (repeat 1 n ++ 0 :: rest) = OPanic PStack /\
  run c (hde c (S n)) (repeat 1 n ++ 0 :: rest) = OOk (nested n) rest.
Proof.
  induction n as [|n [IH1 IH2]]; [split; [apply run_hde_O|cbn [repeat app]; rewrite run_hde_S; reflexivity]|]. cbn [repeat app].
  rewrite !run_hde_S. change (lookup_code code_table 1) with (Some (Box HOptional)). cbn [hde_kind].
  rewrite !run_pmap, IH1, IH2. split; reflexivity.
Qed.

(** ** Memory *)
Lemma allocs_bind {A B} c (p : prog A) (f : A -> prog B) s :
  allocs c (bind p f) s = allocs c p s ++ match run c p s with OOk a r => allocs c (f a) r | _ => [] end.
Proof.
  revert s; induction p as [a|e|q|n e k IH|n e k IH|n k IH]; intros s; cbn [bind allocs run app]; try reflexivity.
  - destruct (lenN s <? n); [reflexivity|apply IH].
  - apply IH.
  - destruct (alloc_result c n); [reflexivity|]. rewrite IH; reflexivity.
Qed.
Lemma allocs_pmap {A B} c (p : prog A) (f : A -> B) s : allocs c (pmap f p) s = allocs c p s.
Proof.
  unfold pmap; rewrite allocs_bind. destruct (run c p s); cbn [allocs]; apply app_nil_r.
Qed.
Lemma total_app a b : total (a ++ b) = total a + total b.
Proof. induction a as [|x a IH]; cbn [app total]; lia. Qed.
Lemma allocs_iter_add {S} c n m (step : S -> prog S) x s :
  allocs c (iter (n + m) step x) s =
  allocs c (iter n step x) s ++ match run c (iter n step x) s with OOk y r => allocs c (iter m step y) r | _ => [] end.
Proof.
  revert x s; induction n as [|n IH]; intros x s; cbn [Nat.add iter]; [reflexivity|].
  rewrite !allocs_bind, run_bind. destruct (run c (step x) s) as [y r|e|q]; cbn [obind]; [|rewrite !app_nil_r; reflexivity..].
  rewrite IH, app_assoc. reflexivity.
Qed.
Lemma allocs_fold_pos {S} c n (step : S -> prog S) x s : allocs c (fold_pos n step x) s = allocs c (iter (Pos.to_nat n) step x) s.
Proof.
  revert x s; induction n as [n IH|n IH|]; intros x s; cbn [fold_pos].
  - replace (Pos.to_nat n~1) with (Datatypes.S (Pos.to_nat n + Pos.to_nat n)) by lia.
    cbn [iter]. rewrite !allocs_bind. destruct (run c (step x) s) as [y r|e|q]; [|reflexivity..]. f_equal.
    rewrite allocs_bind, allocs_iter_add, IH, run_fold_pos. destruct (run c (iter (Pos.to_nat n) step y) r); [|reflexivity..].
    rewrite IH; reflexivity.
  - replace (Pos.to_nat n~0) with (Pos.to_nat n + Pos.to_nat n)%nat by lia.
    rewrite allocs_bind, allocs_iter_add, IH, run_fold_pos. destruct (run c (iter (Pos.to_nat n) step x) s); [|reflexivity..].
    rewrite IH; reflexivity.
  - change (Pos.to_nat 1) with 1%nat; cbn [iter]. rewrite allocs_bind. destruct (run c (step x) s); cbn [allocs]; rewrite app_nil_r; reflexivity.
Qed.
Lemma allocs_foldN {S} c n (step : S -> prog S) x s : allocs c (foldN n step x) s = allocs c (iter (N.to_nat n) step x) s.
Proof. destruct n as [|n]; [reflexivity|]. apply allocs_fold_pos. Qed.
Lemma allocs_rep_acc {A} c n (p : prog A) acc s :
  allocs c (iter n (fun acc => a <- p ;; Ret (a :: acc)) acc) s = allocs c (rep n p) s.
Proof.
  revert acc s; induction n as [|n IH]; intros acc s; cbn [iter rep]; [reflexivity|].
  rewrite !allocs_bind, run_bind. destruct (run c p s) as [a r|e|q]; cbn [obind run allocs]; rewrite ?app_nil_r; [|reflexivity..].
  rewrite IH, allocs_bind. destruct (run c (rep n p) r); cbn [allocs]; rewrite ?app_nil_r; reflexivity.
Qed.
Lemma allocs_repeatN {A} c n (p : prog A) s : allocs c (repeatN n p) s = allocs c (rep (N.to_nat n) p) s.
Proof.
  unfold repeatN. rewrite allocs_bind, allocs_foldN, allocs_rep_acc.
  destruct (run c (foldN n _ []) s); cbn [allocs]; apply app_nil_r.
Qed.
Lemma allocs_dec_u16 c e s : allocs c (dec_u16 e) s = [].
Proof.
  unfold dec_u16, dec_prefix. cbn [bind allocs]. destruct (lenN s <? 1); [reflexivity|]. cbn [bind allocs].
  repeat match goal with |- context [if ?b then _ else _] => destruct b end; try reflexivity; cbn [bind allocs];
  repeat match goal with |- context [if ?b then _ else _] => destruct b end; reflexivity.
Qed.
(** What the decoder asked for in total, in any case, against the input. *)
Lemma hde_total c : forall d s, bytes_ok s ->
  2 * total (allocs c (hde c d) s) +
    65535 * size_of_header c * match run c (hde c d) s with OOk _ r => lenN r | _ => 0 end
  <= 65535 * size_of_header c * lenN s.
Proof.
  set (K := 65535 * size_of_header c).
  induction d as [|d IH]; intros s Hs; [rewrite allocs_hde_O, run_hde_O; cbn [total]; lia|].
  assert (Hrep : forall n s, bytes_ok s ->
    2 * total (allocs c (rep n (hde c d)) s) + K * match run c (rep n (hde c d)) s with OOk _ r => lenN r | _ => 0 end <= K * lenN s).
  { clear s Hs. induction n as [|n IHn]; intros s Hs; cbn [rep]; [cbn [allocs run total]; lia|].
    rewrite allocs_bind, run_bind, total_app. specialize (IH s Hs).
    destruct (run c (hde c d) s) as [h r|e|q] eqn:E; cbn [obind total]; [|lia..].
    pose proof (run_rest _ _ _ _ _ Hs E) as Hr. specialize (IHn r Hr).
    rewrite allocs_bind, run_bind, total_app. destruct (run c (rep n (hde c d)) r) as [l r2|e|q]; cbn [obind run allocs total]; lia. }
  destruct s as [|b s]; [rewrite allocs_hde_nil, run_hde_nil; cbn [total]; lia|].
  rewrite allocs_hde_S, run_hde_S, lenN_cons. inversion Hs as [|? ? Hb Hs']; subst.
  destruct (lookup_code code_table b) as [[h'|f|f]|]; cbn [hde_kind].
  - cbn [allocs run total]. lia.
  - rewrite allocs_pmap, run_pmap. specialize (IH s Hs'). destruct (run c (hde c d) s); cbn [obind]; lia.
  - unfold hde_members. rewrite allocs_bind, run_bind, allocs_dec_u16. cbn [app].
    destruct (run c (dec_u16 EIo) s) as [n r|e|q] eqn:E; cbn [obind]; [|cbn [total]; lia..].
    pose proof (consumes_u16 c EIo s n r Hs' E) as (k & Ek & _ & Hk & Hn).
    pose proof (run_rest _ _ _ _ _ Hs' E) as Hr. cbn [allocs run total].
    assert (HK : n * size_of_header c <= K) by (unfold K; apply N.mul_le_mono_r; change (2 ^ 16) with 65536 in Hn; lia).
    assert (HKk : K * 1 <= K * k) by (apply N.mul_le_mono_l; exact Hk).
    rewrite Ek. destruct (alloc_result c _); cbn [total]; [lia|].
    rewrite allocs_pmap, run_pmap, allocs_repeatN, run_repeatN. specialize (Hrep (N.to_nat n) r Hr).
    destruct (run c (rep (N.to_nat n) (hde c d)) r); cbn [obind]; lia.
  - cbn [allocs run total]. lia.
Qed.

(** ** Too many members *)
Lemma hser_headers hs : wresult (wconcat (map hser hs)) = WeOk /\
  (forallb counts_fit hs = true -> headers_wire true (wbytes (wconcat (map hser hs))) hs).
Proof.
  induction hs as [|h hs [IH1 IH2]]; cbn [map forallb]; [split; [reflexivity|constructor]|].
  destruct (hser_wire h) as [Hh1 Hh2].
  change (wconcat (hser h :: map hser hs)) with (wseq (hser h) (wconcat (map hser hs))).
  rewrite wresult_wseq, Hh1. split; [exact IH1|]. intros Hc; apply andb_prop in Hc as [Hc1 Hc2].
  rewrite wbytes_wseq_done by exact Hh1. constructor; auto.
Qed.
Lemma wconcat_app a b : Forall (fun w => wresult w = WeOk) a -> wbytes (wconcat (a ++ b)) = wbytes (wconcat a) ++ wbytes (wconcat b).
Proof.
  induction 1 as [|w a Hw _ IH]; [reflexivity|]. cbn [app].
  change (wconcat (w :: a ++ b)) with (wseq w (wconcat (a ++ b))). change (wconcat (w :: a)) with (wseq w (wconcat a)).
  rewrite !wbytes_wseq_done, IH, app_assoc by exact Hw. reflexivity.
Qed.
Lemma hser_members f code hs : (f = HTuple /\ code = 21) \/ (f = HEnum /\ code = 24) ->
  wresult (hser (f hs)) = WeOk /\
  wbytes (hser (f hs)) = code :: enc_u16 (lenN hs mod 2 ^ 16) ++ wbytes (wconcat (map hser hs)).
Proof.
  intros [[-> ->]|[-> ->]]; (split; [apply hser_wire|]); cbn [hser]; cbv zeta; cbn [wr wseq wbytes app]; reflexivity.
Qed.
Lemma hde_truncates c d f code hs rest : room c -> (f = HTuple /\ code = 21) \/ (f = HEnum /\ code = 24) ->
  forallb counts_fit hs = true -> (list_max (map hdepth hs) < d)%nat ->
  let n := N.to_nat (lenN hs mod 2 ^ 16) in
  run c (hde c d) (wbytes (hser (f hs)) ++ rest) =
    OOk (f (firstn n hs)) (wbytes (wconcat (map hser (skipn n hs))) ++ rest).
Proof.
  intros Hroom Hf Hc Hd n.
  assert (Hfirst : forall k (l : list header), forallb counts_fit l = true -> forallb counts_fit (firstn k l) = true).
  { clear. induction k as [|k IH]; intros [|h l] H; try reflexivity. cbn [firstn forallb] in *.
    apply andb_prop in H as [-> H]. apply IH, H. }
  assert (Hmax : forall k (l : list header), (list_max (map hdepth (firstn k l)) <= list_max (map hdepth l))%nat).
  { clear. induction k as [|k IH]; intros [|h l]; try (cbn; lia). cbn [firstn map list_max fold_right].
    specialize (IH l). unfold list_max in IH. lia. }
  assert (Hn : lenN hs mod 2 ^ 16 < 2 ^ 16) by (apply N.mod_lt; discriminate).
  assert (Hlen : lenN (firstn n hs) = lenN hs mod 2 ^ 16).
  { unfold lenN at 1. rewrite firstn_length. assert (lenN hs mod 2 ^ 16 <= lenN hs) by (apply N.mod_le; discriminate).
    unfold n, lenN in *. lia. }
  destruct (hser_members f code hs Hf) as [_ ->].
  assert (Ew : wbytes (wconcat (map hser hs)) = wbytes (wconcat (map hser (firstn n hs))) ++ wbytes (wconcat (map hser (skipn n hs)))).
  { rewrite <- wconcat_app, <- map_app, firstn_skipn; [reflexivity|]. apply Forall_forall. intros w Hw.
    apply in_map_iff in Hw as (h & <- & _). apply hser_wire. }
  rewrite Ew, <- Hlen.
  assert (P : header_wire true (code :: enc_u16 (lenN (firstn n hs)) ++ wbytes (wconcat (map hser (firstn n hs)))) (f (firstn n hs))).
  { rewrite <- Hlen in Hn. rewrite enc_u16_spec by exact Hn.
    destruct (varint_bytes_shape 2 (lenN (firstn n hs)) (or_introl eq_refl) Hn) as (p & t & E & Hp & Ht & Hl & Hv).
    rewrite E. apply hw_members; auto.
    - destruct Hf as [[-> ->]|[-> ->]]; cbn; tauto.
    - apply hser_headers, Hfirst, Hc. }
  apply (proj1 (wire_parses c true Hroom)) with (d := d) in P.
  - destruct P as [P _]. specialize (P (wbytes (wconcat (map hser (skipn n hs))) ++ rest)).
    rewrite <- P. f_equal. cbn [app]. rewrite <- !app_assoc. reflexivity.
  - specialize (Hmax n hs). destruct Hf as [[-> ->]|[-> ->]]; cbn [hdepth]; lia.
Qed.
Lemma hde_fit c d s h r : bytes_ok s -> run c (hde c d) s = OOk h r -> counts_fit h = true.
Proof. intros Hs H. apply hde_wire in H as (u & _ & W); [|exact Hs]. apply (proj1 (wire_size false) u h W). Qed.
Lemma hde_roundtrip c d h rest : room c -> counts_fit h = true -> (hdepth h <= d)%nat ->
  wresult (hser h) = WeOk /\ run c (hde c d) (wbytes (hser h) ++ rest) = OOk h rest.
Proof.
  intros Hroom Hc Hd. destruct (hser_wire h) as [H1 H2]. split; [exact H1|].
  apply (proj1 (wire_parses c true Hroom) _ _ (H2 Hc) d Hd).
Qed.
Lemma hde_local c d s h r : room c -> bytes_ok s -> run c (hde c d) s = OOk h r -> (hdepth h <= d)%nat ->
  exists u, s = u ++ r /\ (forall t, run c (hde c d) (u ++ t) = OOk h t) /\
    (forall u1 x t1, u = u1 ++ x :: t1 -> run c (hde c d) u1 = OErr EIo).
Proof.
  intros Hroom Hs H Hd. apply hde_wire in H as (u & -> & W); [|exact Hs]. exists u. split; [reflexivity|].
  destruct (proj1 (wire_parses c false Hroom) u h W d Hd) as [P1 P2]. split; [exact P1|].
  intros u1 x t1 E. eapply P2; exact E.
Qed.
Lemma hde_depth c : forall d s h r, run c (hde c d) s = OOk h r -> (hdepth h <= d)%nat.
Proof.
  induction d as [|d IH]; intros s h r H; [rewrite run_hde_O in H; discriminate|].
  assert (Hrep : forall n s hs r, run c (rep n (hde c d)) s = OOk hs r -> (list_max (map hdepth hs) <= d)%nat).
  { clear s h r H. induction n as [|n IHn]; intros s hs r H; cbn [rep] in H; [injection H as <- _; cbn; lia|].
    apply run_bind_ok in H as (h & r1 & H1 & H2). apply IH in H1.
    apply run_bind_ok in H2 as (l & r2 & H2 & H3). injection H3 as <- <-. apply IHn in H2.
    cbn [map list_max fold_right]. unfold list_max in H2. lia. }
  destruct s as [|b s]; [rewrite run_hde_nil in H; discriminate|]. rewrite run_hde_S in H.
  destruct (lookup_code code_table b) as [[h'|f|f]|] eqn:Ek; cbn [hde_kind] in H; [| | |discriminate]; apply code_in in Ek.
  - injection H as <- _. destruct (kind_leaf _ _ Ek) as (_ & -> & _). lia.
  - apply run_pmap_ok in H as (h' & H & ->). apply IH in H. destruct (kind_box b f Ek) as [->|[->| ->]]; cbn [hdepth]; lia.
  - unfold hde_members in H. apply run_bind_ok in H as (n & r1 & _ & H2).
    cbn [run] in H2. destruct (alloc_result c _); [discriminate|]. apply run_pmap_ok in H2 as (hs & H2 & ->).
    rewrite run_repeatN in H2. apply Hrep in H2. destruct (kind_members b f Ek) as [->| ->]; cbn [hdepth]; lia.
Qed.

(** ** Canonical bytes are unique *)
Lemma wire_hser :
  (forall u h, header_wire true u h -> u = wbytes (hser h)) /\
  (forall u hs, headers_wire true u hs -> u = wbytes (wconcat (map hser hs))).
Proof.
  apply (header_wire_both true (fun u h _ => u = wbytes (hser h)) (fun u hs _ => u = wbytes (wconcat (map hser hs)))).
  - intros b h Hb. cbn in Hb. repeat (destruct Hb as [Hb|Hb]; [first [discriminate | injection Hb as <- <-; reflexivity]|]). destruct Hb.
  - intros b f u h Hb _ ->. cbn in Hb. repeat (destruct Hb as [Hb|Hb]; [first [discriminate | injection Hb as <- <-; reflexivity]|]). destruct Hb.
  - intros b f p t u hs Hb Hp Ht Hl Hv Hc W ->.
    assert (Hn : lenN hs < 2 ^ 16).
    { rewrite <- Hv. apply (varint_value_bound 2 p t (or_introl eq_refl) Hp Ht Hl). }
    rewrite (Hc eq_refl). cbn in Hb.
    repeat (destruct Hb as [Hb|Hb]; [first [discriminate | injection Hb as <- <-;
      first [rewrite (proj2 (hser_members HTuple 21 hs (or_introl (conj eq_refl eq_refl)))) | rewrite (proj2 (hser_members HEnum 24 hs (or_intror (conj eq_refl eq_refl))))];
      rewrite N.mod_small, enc_u16_spec by exact Hn; reflexivity]|]). destruct Hb.
  - reflexivity.
  - intros u h v hs _ -> _ ->. cbn [map]. change (wconcat (hser h :: map hser hs)) with (wseq (hser h) (wconcat (map hser hs))).
    rewrite wbytes_wseq_done by apply hser_wire. reflexivity.
Qed.
