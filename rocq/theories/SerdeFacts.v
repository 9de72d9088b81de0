(** * Proofs about Serde.v: round trips for every type description. *)
From Coq Require Import String.
From Verif Require Import Base BaseFacts Varint VarintFacts ZigZagFacts Utf8 Utf8Facts SpecVarint Serde Typing PrimFacts.
Local Open Scope list_scope.
Local Open Scope N_scope.

(** ** Induction over types with nested lists *)
Section DtyInd.
  Variable P : dty -> Prop.
  Hypothesis Hbool : P DBool.
  Hypothesis Hi8 : P DI8. Hypothesis Hi16 : P DI16. Hypothesis Hi32 : P DI32.
  Hypothesis Hi64 : P DI64. Hypothesis Hi128 : P DI128.
  Hypothesis Hu8 : P DU8. Hypothesis Hu16 : P DU16. Hypothesis Hu32 : P DU32.
  Hypothesis Hu64 : P DU64. Hypothesis Hu128 : P DU128.
  Hypothesis Hisize : P DIsize. Hypothesis Husize : P DUsize.
  Hypothesis Hf32 : P DF32. Hypothesis Hf64 : P DF64.
  Hypothesis Hchar : P DChar.
  Hypothesis Hstring : P DString. Hypothesis Hstr : P DStr.
  Hypothesis Hbuf : P DByteBuf. Hypothesis Hbytes : P DBytes.
  Hypothesis Hoption : forall d, P d -> P (DOption d).
  Hypothesis Hunit : P DUnit. Hypothesis Hus : P DUnitStruct.
  Hypothesis Hns : forall d, P d -> P (DNewtypeStruct d).
  Hypothesis Hvec : forall d, P d -> P (DVec d).
  Hypothesis Htuple : forall ds, Forall P ds -> P (DTuple ds).
  Hypothesis Hts : forall ds, Forall P ds -> P (DTupleStruct ds).
  Hypothesis Hmap : forall d, P d -> P (DMap d).
  Hypothesis Hstruct : forall keys fs, Forall (fun nf => P (snd nf)) fs -> P (DStruct keys fs).
  Hypothesis Henum : forall vs, Forall (fun kd => P (snd kd)) vs -> P (DEnum vs).
  Hypothesis Hany : P DAny. Hypothesis Hign : P DIgnored.
  Hypothesis Hbu : P DBigUint. Hypothesis Hbi : P DBigInt. Hypothesis Hbd : P DBigDecimal.
  Hypothesis Hdate : P DDate. Hypothesis Hdt : P DDateTime.

  Fixpoint dty_ind2 (d : dty) : P d :=
    match d with
    | DBool => Hbool
    | DI8 => Hi8 | DI16 => Hi16 | DI32 => Hi32 | DI64 => Hi64 | DI128 => Hi128
    | DU8 => Hu8 | DU16 => Hu16 | DU32 => Hu32 | DU64 => Hu64 | DU128 => Hu128
    | DIsize => Hisize | DUsize => Husize
    | DF32 => Hf32 | DF64 => Hf64
    | DChar => Hchar
    | DString => Hstring | DStr => Hstr
    | DByteBuf => Hbuf | DBytes => Hbytes
    | DOption d => Hoption d (dty_ind2 d)
    | DUnit => Hunit | DUnitStruct => Hus
    | DNewtypeStruct d => Hns d (dty_ind2 d)
    | DVec d => Hvec d (dty_ind2 d)
    | DTuple ds => Htuple ds
        ((fix go l : Forall P l := match l with
          | [] => Forall_nil _ | d :: t => Forall_cons _ (dty_ind2 d) (go t) end) ds)
    | DTupleStruct ds => Hts ds
        ((fix go l : Forall P l := match l with
          | [] => Forall_nil _ | d :: t => Forall_cons _ (dty_ind2 d) (go t) end) ds)
    | DMap d => Hmap d (dty_ind2 d)
    | DStruct keys fs => Hstruct keys fs
        ((fix go l : Forall (fun nf => P (snd nf)) l := match l with
          | [] => Forall_nil _ | nf :: t => Forall_cons _ (dty_ind2 (snd nf)) (go t) end) fs)
    | DEnum vs => Henum vs
        ((fix go l : Forall (fun kd => P (snd kd)) l := match l with
          | [] => Forall_nil _ | kd :: t => Forall_cons _ (dty_ind2 (snd kd)) (go t) end) vs)
    | DAny => Hany | DIgnored => Hign
    | DBigUint => Hbu | DBigInt => Hbi | DBigDecimal => Hbd
    | DDate => Hdate | DDateTime => Hdt
    end.
End DtyInd.

(** ** Writing *)
Lemma wconcat_ok {A} (f : A -> wprog) l :
  Forall (fun a => wresult (f a) = WeOk) l ->
  wresult (wconcat (map f l)) = WeOk /\ wbytes (wconcat (map f l)) = concat (map (fun a => wbytes (f a)) l).
Proof.
  intros H.
  assert (H' : Forall (fun w => wresult w = WeOk) (map f l)).
  { apply Forall_map. exact H. }
  split; [apply wresult_wconcat, H'|]. rewrite wbytes_wconcat, map_map by exact H'. reflexivity.
Qed.
Lemma wbytes_seq_wr bs w : wbytes (wseq (wr bs) w) = bs ++ wbytes w.
Proof. reflexivity. Qed.
Lemma wresult_seq_wr bs w : wresult (wseq (wr bs) w) = wresult w.
Proof. reflexivity. Qed.

(** ** Maps *)
Lemma bytes_cmp_refl a : bytes_cmp a a = Eq.
Proof. induction a as [|x a IH]; cbn [bytes_cmp]; [reflexivity|]. rewrite N.compare_refl; exact IH. Qed.
Lemma bytes_cmp_eq a b : bytes_cmp a b = Eq -> a = b.
Proof.
  revert b; induction a as [|x a IH]; intros [|y b]; cbn [bytes_cmp]; try discriminate; [reflexivity|].
  destruct (N.compare_spec x y); try discriminate. intros H'; subst; f_equal; auto.
Qed.
Lemma bytes_cmp_antisym a b : bytes_cmp b a = CompOpp (bytes_cmp a b).
Proof.
  revert b; induction a as [|x a IH]; intros [|y b]; cbn [bytes_cmp]; try reflexivity.
  rewrite (N.compare_antisym x y). destruct (N.compare x y); cbn [CompOpp]; auto.
Qed.
Lemma bytes_cmp_trans a b d : bytes_cmp a b = Lt -> bytes_cmp b d = Lt -> bytes_cmp a d = Lt.
Proof.
  revert b d; induction a as [|x a IH]; intros [|y b] [|z d]; cbn [bytes_cmp]; try discriminate; try reflexivity.
  destruct (N.compare_spec x y); try discriminate; destruct (N.compare_spec y z); try discriminate; intros H1 H2; subst.
  - rewrite N.compare_refl; eauto.
  - destruct (N.compare_spec y z); try lia; reflexivity.
  - destruct (N.compare_spec x z); try lia; reflexivity.
  - destruct (N.compare_spec x z); try lia; reflexivity.
Qed.

(** Keys below [k]. *)
Definition keys_lt {V} (m : list (list N * V)) (k : list N) : Prop :=
  Forall (fun kv => bytes_cmp (fst kv) k = Lt) m.
Lemma map_insert_last {V} k (v : V) m : keys_lt m k -> map_insert k v m = m ++ [(k, v)].
Proof.
  induction 1 as [|[k' v'] m Hk Hm IH]; cbn [map_insert app]; [reflexivity|].
  cbn [fst] in Hk. rewrite bytes_cmp_antisym, Hk. cbn [CompOpp]. rewrite IH; reflexivity.
Qed.
Lemma sorted_cons {V} k (v : V) m : sorted_keys ((k, v) :: m) = true ->
  sorted_keys m = true /\ Forall (fun kv => bytes_cmp k (fst kv) = Lt) m.
Proof.
  revert k v; induction m as [|[k' v'] m IH]; intros k v H; [split; [reflexivity|constructor]|].
  cbn [sorted_keys] in H. destruct (bytes_cmp k k') eqn:E; try discriminate.
  specialize (IH k' v' H) as [H1 H2]. split; [exact H|].
  constructor; [exact E|]. eapply Forall_impl; [|exact H2]. intros kv Hkv; eapply bytes_cmp_trans; eassumption.
Qed.
Lemma insert_all_sorted {V} (m m0 : list (list N * V)) :
  sorted_keys m = true -> Forall (fun kv => keys_lt m0 (fst kv)) m ->
  fold_left (fun acc kv => map_insert (fst kv) (snd kv) acc) m m0 = m0 ++ m.
Proof.
  revert m0; induction m as [|[k v] m IH]; intros m0 Hs Hlt; cbn [fold_left]; [symmetry; apply app_nil_r|].
  apply sorted_cons in Hs as [Hs Hk]. inversion Hlt as [|? ? Hk0 Hlt']; subst. cbn [fst snd] in *.
  rewrite map_insert_last by exact Hk0. rewrite IH; [rewrite <- app_assoc; reflexivity|exact Hs|].
  rewrite Forall_forall in *. intros kv Hin. apply Forall_app; split; [apply Hlt', Hin|].
  constructor; [apply Hk, Hin|constructor].
Qed.

(** A loop whose i-th step consumes the encoding of the i-th item. *)
Lemma parses_iter {S X} c e (step : S -> prog S) (enc : X -> list N) (g : S -> X -> S) xs s :
  Forall (fun x => forall s, parses c e (step s) (enc x) (g s x)) xs ->
  parses c e (iter (length xs) step s) (concat (map enc xs)) (fold_left g xs s).
Proof.
  intros H; revert s; induction H as [|x xs Hx Hxs IH]; intros s; cbn [length iter map concat fold_left];
    [apply parses_ret|].
  eapply parses_bind; [apply Hx|apply IH].
Qed.
Lemma parses_foldN {S X} c e (step : S -> prog S) (enc : X -> list N) (g : S -> X -> S) xs s :
  Forall (fun x => forall s, parses c e (step s) (enc x) (g s x)) xs ->
  parses c e (foldN (lenN xs) step s) (concat (map enc xs)) (fold_left g xs s).
Proof.
  intros H; eapply parses_ext; [intros; apply run_foldN|]. unfold lenN; rewrite Nat2N.id.
  apply parses_iter, H.
Qed.

Definition enc_str (bs : list N) : list N := enc_u64 (lenN bs) ++ bs.
Lemma parses_map_n {A} c (p : prog A) (enc : list N * A -> list N) m : wf_cfg c ->
  Forall (fun kv => str_ok c (fst kv) = true /\ parses c ERead p (enc kv) (snd kv)) m ->
  parses c ERead (de_map_n c (lenN m) p)
    (concat (map (fun kv => enc_str (fst kv) ++ enc kv) m))
    (fold_left (fun acc kv => map_insert (fst kv) (snd kv) acc) m []).
Proof.
  intros Hc H. unfold de_map_n.
  apply (parses_foldN c ERead _ (fun kv => enc_str (fst kv) ++ enc kv)).
  eapply Forall_impl; [|exact H]. intros kv [Hk Hv] s.
  apply andb_prop in Hk as [Hk1 Hk2].
  eapply parses_bind; [apply parses_string; [exact Hc|exact Hk1|apply N.ltb_lt, Hk2]|].
  eapply parses_bind_ret; [exact Hv|reflexivity].
Qed.
Lemma parses_map {A} c (p : prog A) (enc : list N * A -> list N) m : wf_cfg c ->
  lenN m < 2 ^ usize_bits c ->
  Forall (fun kv => str_ok c (fst kv) = true /\ parses c ERead p (enc kv) (snd kv)) m ->
  parses c ERead (de_map c p)
    (enc_u64 (lenN m) ++ concat (map (fun kv => enc_str (fst kv) ++ enc kv) m))
    (fold_left (fun acc kv => map_insert (fst kv) (snd kv) acc) m []).
Proof.
  intros Hc Hl H; unfold de_map. eapply parses_bind; [apply parses_u64, (lt_usize_64 c); assumption|].
  rewrite as_usize_id by assumption. apply parses_map_n; assumption.
Qed.

(** ** Structs *)
Lemma find_field_app {A} k (fs1 fs2 : list (string * A)) p :
  ~ In k (map fst fs1) -> find_field k (fs1 ++ (k, p) :: fs2) = Some (length fs1, p).
Proof.
  induction fs1 as [|[n q] fs1 IH]; cbn [map app find_field length fst]; intros H.
  - rewrite String.eqb_refl; reflexivity.
  - destruct (String.eqb_spec k n) as [->|Hn]; [exfalso; apply H; left; reflexivity|].
    rewrite IH; [reflexivity|]. intros Hin; apply H; right; exact Hin.
Qed.
Lemma set_slot_app {A} (a : A) s1 x s2 : set_slot (length s1) a (s1 ++ x :: s2) = s1 ++ Some a :: s2.
Proof. induction s1 as [|y s1 IH]; cbn [length app set_slot]; [reflexivity|]. rewrite IH; reflexivity. Qed.
Lemma nth_error_mid {A} (s1 : list A) x s2 : nth_error (s1 ++ x :: s2) (length s1) = Some x.
Proof. induction s1 as [|y s1 IH]; cbn [length app nth_error]; [reflexivity|exact IH]. Qed.

Lemma parses_struct_loop {A} c (fs : list (string * prog A)) us l :
  NoDup (map fst fs) ->
  Forall2 (fun pu a => parses c ERead (fst pu) (snd pu) a) (combine (map snd fs) us) l ->
  length fs = length us ->
  parses c ERead (struct_loop (map fst fs) fs (map (fun _ => None) fs)) (concat us) (map Some l).
Proof.
  intros Hnd HF Hlen.
  assert (G : forall fs2 us2 l2 fs1 (l1 : list A), fs = fs1 ++ fs2 -> length fs1 = length l1 ->
     Forall2 (fun pu a => parses c ERead (fst pu) (snd pu) a) (combine (map snd fs2) us2) l2 ->
     length fs2 = length us2 ->
     parses c ERead (struct_loop (map fst fs2) fs (map Some l1 ++ map (fun _ => None) fs2))
       (concat us2) (map Some (l1 ++ l2))).
  { clear us l HF Hlen.
    induction fs2 as [|[k p] fs2 IH]; intros us2 l2 fs1 l1 E El HF Hlen.
    - destruct us2; [|discriminate]. cbn [map combine] in HF; inversion HF; subst.
      cbn [map struct_loop concat]. rewrite !app_nil_r. apply parses_ret.
    - destruct us2 as [|u us2]; [discriminate|]. cbn [map combine fst snd] in HF.
      inversion HF as [|? a ? l2' Hp HF']; subst l2. cbn [fst snd] in Hp.
      cbn [map struct_loop concat fst].
      assert (Hk : ~ In k (map fst fs1)).
      { rewrite E, map_app in Hnd. cbn [map fst] in Hnd. apply NoDup_remove_2 in Hnd.
        intros Hin; apply Hnd, in_or_app; left; exact Hin. }
      assert (Ef : find_field k fs = Some (length fs1, p)) by (rewrite E; apply find_field_app, Hk).
      rewrite Ef.
      assert (El1 : length (map (@Some A) l1) = length fs1) by (rewrite map_length; congruence).
      assert (En : nth_error (map Some l1 ++ None :: map (fun _ => None) fs2) (length fs1) = Some None)
        by (rewrite <- El1; apply nth_error_mid).
      rewrite En. eapply parses_bind; [exact Hp|].
      replace (length fs1) with (length (map (@Some A) l1)).
      rewrite set_slot_app.
      specialize (IH us2 l2' (fs1 ++ [(k, p)]) (l1 ++ [a])).
      rewrite map_app in IH. cbn [map] in IH. rewrite <- !app_assoc in IH. cbn [app] in IH.
      apply IH; [exact E| |exact HF'|cbn [length] in Hlen; lia].
      rewrite !app_length; cbn [length]; lia. }
  apply (G fs us l [] []); auto.
Qed.
Lemma fill_missing_all {A} (miss : list (option A)) l : length miss = length l ->
  fill_missing miss (map Some l) = Ret l.
Proof.
  revert l; induction miss as [|m miss IH]; intros [|a l] H; try discriminate; [reflexivity|].
  cbn [map fill_missing]. rewrite IH by (cbn [length] in H; lia). reflexivity.
Qed.
Lemma parses_struct {A} c (fs : list (string * prog A)) miss us l :
  NoDup (map fst fs) -> length miss = length l -> length fs = length us ->
  Forall2 (fun pu a => parses c ERead (fst pu) (snd pu) a) (combine (map snd fs) us) l ->
  parses c ERead (de_struct (map fst fs) fs miss) (concat us) l.
Proof.
  intros Hnd Hm Hl HF. unfold de_struct. eapply parses_bind_ret.
  - apply parses_struct_loop; eassumption.
  - apply fill_missing_all, Hm.
Qed.
Lemma nodupb_NoDup l : nodupb l = true -> NoDup l.
Proof.
  induction l as [|x l IH]; cbn [nodupb]; intros H; [constructor|].
  apply andb_prop in H as [H1 H2]. constructor; [|apply IH, H2].
  intros Hin. apply negb_true_iff in H1. assert (existsb (String.eqb x) l = true); [|congruence].
  apply existsb_exists; exists x; split; [exact Hin|apply String.eqb_refl].
Qed.

(** ** Enums *)
Lemma pickN_map {A B} (f : A -> B) l i : pickN (map f l) i = option_map f (pickN l i).
Proof. revert i; induction l as [|a l IH]; intros i; cbn [map pickN]; [reflexivity|]. destruct (i =? 0); auto. Qed.
Lemma pickN_some {A} (l : list A) i a : pickN l i = Some a -> In a l /\ i < lenN l.
Proof.
  revert i; induction l as [|b l IH]; intros i; cbn [pickN]; [discriminate|]. rewrite lenN_cons.
  destruct (N.eqb_spec i 0) as [->|Hi]; intros H.
  - injection H as ->; split; [left; reflexivity|lia].
  - apply IH in H as [H1 H2]; split; [right; exact H1|lia].
Qed.
Lemma pickN_none {A} (l : list A) i : pickN l i = None <-> lenN l <= i.
Proof.
  revert i; induction l as [|b l IH]; intros i; cbn [pickN]; [unfold lenN; cbn; split; [lia|reflexivity]|].
  rewrite lenN_cons. destruct (N.eqb_spec i 0) as [->|Hi].
  - split; [discriminate|lia].
  - rewrite IH; lia.
Qed.
Lemma idx_agree i : i < 16384 -> enc_u32 i = enc_u16 i.
Proof.
  intros H. rewrite enc_u32_spec, enc_u16_spec by (eapply N.lt_trans; [exact H|reflexivity]).
  destruct (N.ltb_spec i 128) as [H1|H1].
  - rewrite (bytes_class 4 0), (bytes_class 2 0) by (first [lia | left; reflexivity]); reflexivity.
  - assert (E : i < 2 ^ (7 * (N.of_nat 1 + 1))) by exact H.
    assert (E2 : 1%nat = 0%nat \/ 2 ^ (7 * N.of_nat 1) <= i) by (right; exact H1).
    rewrite (bytes_class 4 1), (bytes_class 2 1) by (first [lia | exact E | exact E2]); reflexivity.
Qed.
Lemma parses_enum c alts i alt u v : i < 16384 -> pickN alts i = Some alt ->
  parses c ERead (alt i) u v -> parses c ERead (de_enum alts) (enc_u32 i ++ u) v.
Proof.
  intros Hi Ha Hp; unfold de_enum. rewrite idx_agree by exact Hi.
  eapply parses_bind; [apply parses_u16; eapply N.lt_trans; [exact Hi|reflexivity]|].
  rewrite Ha; exact Hp.
Qed.

(** ** forall2b *)
Lemma Forall2_length {A B} (R : A -> B -> Prop) l m : Forall2 R l m -> length l = length m.
Proof. induction 1; cbn [length]; congruence. Qed.
Lemma forall2b_Forall2 {A D} (f : D -> A -> bool) ds l :
  forall2b (map f ds) l = true <-> Forall2 (fun d a => f d a = true) ds l.
Proof.
  revert l; induction ds as [|d ds IH]; intros [|a l]; cbn [map forall2b]; split; intros H;
    try discriminate; try (inversion H; fail); try constructor.
  - apply andb_prop in H; tauto.
  - apply IH; apply andb_prop in H; tauto.
  - inversion H; subst. apply andb_true_intro; split; [assumption|]. apply IH; assumption.
Qed.

(** ** Round trip *)
Definition rt (c : cfg) (d : dty) (v : sval) : Prop :=
  wresult (ser v) = WeOk /\ parses c ERead (de c d) (wbytes (ser v)) v.

Lemma rt_seq c ds l : Forall2 (rt c) ds l ->
  Forall (fun v => wresult (ser v) = WeOk) l /\
  parses c ERead (sequence (map (de c) ds)) (concat (map (fun v => wbytes (ser v)) l)) l.
Proof.
  induction 1 as [|d v ds l [Hw Hp] HF [IH1 IH2]]; cbn [map sequence concat].
  - split; [constructor|apply parses_ret].
  - split; [constructor; assumption|]. eapply parses_bind; [exact Hp|].
    eapply parses_bind_ret; [exact IH2|reflexivity].
Qed.

Lemma vec_u8_of_spec v bs : vec_u8_of v = Some bs -> v = vec_u8 bs.
Proof.
  unfold vec_u8_of; destruct v as [ | | | | | | | | | | | | | | | | | | | | | | |[n|] l| | | | | | | | ]; try discriminate.
  set (g := fun x acc => match x, acc with SU8 b, Some t => Some (b :: t) | _, _ => None end).
  assert (G : forall l bs, fold_right g (Some []) l = Some bs -> l = map SU8 bs).
  { clear; induction l as [|x l IH]; intros bs; cbn [fold_right]; [intros H; injection H as <-; reflexivity|].
    unfold g at 1. destruct x; try discriminate. destruct (fold_right g (Some []) l); [|discriminate].
    intros H; injection H as <-; cbn [map]; f_equal; auto. }
  destruct (fold_right g (Some []) l) as [bs'|] eqn:E; [|discriminate].
  destruct (N.eqb_spec n (lenN bs')) as [->|]; [|discriminate]. intros H; injection H as <-.
  apply G in E as ->. reflexivity.
Qed.
Lemma ser_vec_u8 bs : wresult (ser (vec_u8 bs)) = WeOk /\ wbytes (ser (vec_u8 bs)) = enc_u64 (lenN bs) ++ bs.
Proof.
  unfold vec_u8; cbn [ser ser_len]. unfold ser_u64. rewrite wbytes_seq_wr, wresult_seq_wr, map_map.
  cbn [ser].
  destruct (wconcat_ok (fun n => wr [n]) bs) as [H1 H2].
  { apply Forall_forall; intros; reflexivity. }
  rewrite H1, H2. cbn [wbytes wr app]. rewrite concat_singletons. auto.
Qed.
Lemma vec_u8_ok_spec c v : wf_cfg c -> vec_u8_ok c v = true ->
  exists bs, v = vec_u8 bs /\ bytes_ok bs /\ lenN bs < 2 ^ usize_bits c.
Proof.
  intros Hc; unfold vec_u8_ok. destruct (vec_u8_of v) as [bs|] eqn:E; [|discriminate].
  intros H; apply andb_prop in H as [H1 H2]. exists bs; split; [apply vec_u8_of_spec, E|].
  apply bytes_okb_ok in H1. split; [exact H1|apply N.ltb_lt, H2].
Qed.

Lemma strkeys_spec l m : strkeys l = Some m -> l = map (fun kv => (SStr (fst kv), snd kv)) m.
Proof.
  revert m; induction l as [|[k v] l IH]; intros m; cbn [strkeys]; [intros H; injection H as <-; reflexivity|].
  destruct k; cbn [strkey]; try discriminate.
  destruct (strkeys l) as [m'|]; [|discriminate]. intros H; injection H as <-. cbn [map fst snd]. f_equal; auto.
Qed.

Lemma arith_s_inv c y y' : in_s 32 y = true -> arith_s c 32 (y + YEAR_OFFSET) = Some y' ->
  arith_s c 32 (y' - YEAR_OFFSET) = Some y.
Proof.
  intros Hy; unfold arith_s. destruct (in_s 32 (y + YEAR_OFFSET)) eqn:E.
  - intros H; injection H as <-. replace (y + YEAR_OFFSET - YEAR_OFFSET)%Z with y by lia. rewrite Hy; reflexivity.
  - destruct (overflow_checks c); [discriminate|]. intros H; injection H as <-.
    assert (E2 : wrap_s 32 (wrap_s 32 (y + YEAR_OFFSET) - YEAR_OFFSET) = y).
    { apply in_s_iff in Hy. revert E. unfold in_s, wrap_s, YEAR_OFFSET.
      change (2 ^ Z.of_N 32)%Z with 4294967296%Z. change (2 ^ (Z.of_N 32 - 1))%Z with 2147483648%Z in *.
      intros E. assert (y + 2000 >= 2147483648)%Z by lia.
      replace (y + 2000 + 2147483648)%Z with (y + 2000 - 2147483648 + 1 * 4294967296)%Z by lia.
      rewrite Z_mod_plus_full, (Z.mod_small (y + 2000 - 2147483648)) by lia.
      replace (y + 2000 - 2147483648 - 2147483648 - 2000 + 2147483648)%Z with (y + 2147483648 + (-1) * 4294967296)%Z by lia.
      rewrite Z_mod_plus_full, Z.mod_small by lia. lia. }
    destruct (in_s 32 (wrap_s 32 (y + YEAR_OFFSET) - YEAR_OFFSET)) eqn:E3; [|rewrite E2; reflexivity].
    rewrite (wrap_s_id 32 _ ltac:(lia) E3) in E2. rewrite E2; reflexivity.
Qed.
Lemma arith_u_inv c o o' : o < 2 ^ 16 -> arith_u c 16 (Z.of_N o + Z.of_N ORDINAL_OFFSET) = Some o' ->
  arith_u c 16 (Z.of_N o' - Z.of_N ORDINAL_OFFSET) = Some o.
Proof.
  unfold arith_u, ORDINAL_OFFSET. change (2 ^ 16) with 65536. change (2 ^ Z.of_N 16)%Z with 65536%Z.
  change (Z.of_N 1) with 1%Z. intros Ho.
  destruct ((0 <=? Z.of_N o + 1) && (Z.of_N o + 1 <? 65536))%Z eqn:E.
  - intros H; injection H as <-. rewrite Z2N.id by lia.
    replace (Z.of_N o + 1 - 1)%Z with (Z.of_N o) by lia.
    destruct ((0 <=? Z.of_N o) && (Z.of_N o <? 65536))%Z eqn:E2; [|lia]. rewrite N2Z.id; reflexivity.
  - destruct (overflow_checks c); [discriminate|]. intros H; injection H as <-.
    assert (Z.of_N o + 1 = 65536)%Z as -> by lia. change (65536 mod 65536)%Z with 0%Z. cbn.
    f_equal; lia.
Qed.

Lemma rt_date c y o : in_s 32 y = true -> o < 2 ^ 16 ->
  negb (overflow_checks c) || (in_s 32 (y + YEAR_OFFSET) && (o + ORDINAL_OFFSET <? 2 ^ 16)) = true ->
  exists y' o', date_sval c y' o' = STuple [SI32 y; SU16 o] /\
    parses c ERead (de_date c) (enc_u32 (enc_zigzag 32 y) ++ enc_u16 o) (y', o').
Proof.
  intros Hy Ho Hov.
  assert (exists y', arith_s c 32 (y + YEAR_OFFSET) = Some y') as [y' Ey].
  { unfold arith_s. destruct (in_s 32 (y + YEAR_OFFSET)) eqn:E; [eauto|].
    destruct (overflow_checks c); [discriminate Hov|eauto]. }
  assert (exists o', arith_u c 16 (Z.of_N o + Z.of_N ORDINAL_OFFSET) = Some o') as [o' Eo].
  { unfold arith_u. destruct ((0 <=? Z.of_N o + Z.of_N ORDINAL_OFFSET) && (Z.of_N o + Z.of_N ORDINAL_OFFSET <? 2 ^ Z.of_N 16))%Z eqn:E; [eauto|].
    destruct (overflow_checks c); [|eauto]. cbn [negb orb] in Hov. apply andb_prop in Hov as [_ Hov].
    unfold ORDINAL_OFFSET in *. change (2 ^ 16) with 65536 in *. change (2 ^ Z.of_N 16)%Z with 65536%Z in *. lia. }
  exists y', o'; split.
  - unfold date_sval. rewrite (arith_s_inv _ _ _ Hy Ey), (arith_u_inv _ _ _ Ho Eo). reflexivity.
  - unfold de_date. eapply parses_bind; [apply parses_de_i32, Hy|]. rewrite Ey; cbn [or_overflow bind].
    eapply parses_bind_ret; [apply parses_u16, Ho|]. rewrite Eo; reflexivity.
Qed.

Lemma roundtrip c d v : wf_cfg c -> 4096 <= heap_limit c ->
  wf_dty d = true -> has_ty c d v = true -> rt c d v.
Proof.
  intros Hc Hh. revert v.
  assert (Hi := isize_max_lt c Hc).
  induction d using dty_ind2; intros v Hwf Ht; cbn [wf_dty has_ty] in Hwf, Ht; try discriminate;
    unfold rt; cbn [de].
  - (* bool *) destruct v; try discriminate. split; [reflexivity|]. apply parses_pmap, parses_bool.
  - destruct v; try discriminate. split; [reflexivity|]. apply parses_pmap, parses_i8, Ht.
  - destruct v; try discriminate. split; [reflexivity|]. cbn [ser ser_i16 wr wbytes]; rewrite app_nil_r. apply parses_pmap, parses_de_i16, Ht.
  - destruct v; try discriminate. split; [reflexivity|]. cbn [ser ser_i32 wr wbytes]; rewrite app_nil_r. apply parses_pmap, parses_de_i32, Ht.
  - destruct v; try discriminate. split; [reflexivity|]. cbn [ser ser_i64 wr wbytes]; rewrite app_nil_r. apply parses_pmap, parses_de_i64, Ht.
  - destruct v; try discriminate. split; [reflexivity|]. apply parses_pmap, parses_byte.
  - destruct v; try discriminate. split; [reflexivity|]. cbn [ser ser_u16 wr wbytes]; rewrite app_nil_r. apply parses_pmap, parses_u16, N.ltb_lt, Ht.
  - destruct v; try discriminate. split; [reflexivity|]. cbn [ser ser_u32 wr wbytes]; rewrite app_nil_r. apply parses_pmap, parses_u32, N.ltb_lt, Ht.
  - destruct v; try discriminate. split; [reflexivity|]. cbn [ser ser_u64 wr wbytes]; rewrite app_nil_r. apply parses_pmap, parses_u64, N.ltb_lt, Ht.
  - (* isize *) destruct v; try discriminate. split; [reflexivity|]. cbn [ser ser_i64 wr wbytes]; rewrite app_nil_r. apply parses_pmap, parses_isize; assumption.
  - destruct v; try discriminate. split; [reflexivity|]. cbn [ser ser_u64 wr wbytes]; rewrite app_nil_r. apply parses_pmap, parses_usize; [assumption|apply N.ltb_lt, Ht].
  - (* f32 *) destruct v; try discriminate. split; [reflexivity|]. cbn [ser wr wbytes]; rewrite app_nil_r.
    apply parses_pmap, (parses_float c 4 4); [reflexivity|apply N.ltb_lt, Ht].
  - destruct v; try discriminate. split; [reflexivity|]. cbn [ser wr wbytes]; rewrite app_nil_r.
    apply parses_pmap, (parses_float c 8 8); [reflexivity|apply N.ltb_lt, Ht].
  - (* char *) destruct v; try discriminate. split; [reflexivity|]. cbn [ser ser_str ser_u64 wseq wr wbytes]; rewrite app_nil_r.
    apply parses_pmap, parses_char; assumption.
  - (* string *) destruct v; try discriminate. split; [reflexivity|]. cbn [ser ser_str ser_u64 wseq wr wbytes]; rewrite app_nil_r.
    apply andb_prop in Ht as [H1 H2]. apply parses_pmap, parses_string; [assumption|assumption|apply N.ltb_lt, H2].
  - (* bytes *) destruct v; try discriminate. split; [reflexivity|]. cbn [ser ser_bytes ser_u64 wseq wr wbytes]; rewrite app_nil_r.
    apply andb_prop in Ht as [H1 H2]. apply parses_pmap, parses_byte_buf; [assumption|assumption|apply N.ltb_lt, H2].
  - (* option *) destruct v; try discriminate.
    + split; [reflexivity|]. cbn [ser wr wbytes app].
      apply (parses_pmap _ _ (de_option (de c d)) (fun o => match o with Some v => SSome v | None => SNone end) [0] None).
      apply (parses_bind_ret c ERead _ _ [0] false); [apply (parses_bool c false)|reflexivity].
    + destruct (IHd v Hwf Ht) as [Hw Hp]. cbn [ser]. rewrite wbytes_seq_wr, wresult_seq_wr. split; [exact Hw|].
      apply (parses_pmap _ _ (de_option (de c d)) (fun o => match o with Some v => SSome v | None => SNone end) _ (Some v)).
      eapply parses_bind; [apply (parses_bool c true)|]. apply parses_pmap, Hp.
  - destruct v; try discriminate. split; [reflexivity|apply parses_ret].
  - destruct v; try discriminate. split; [reflexivity|apply parses_ret].
  - (* newtype struct *) destruct v; try discriminate. destruct (IHd v Hwf Ht) as [Hw Hp]. split; [exact Hw|].
    cbn [ser]. apply parses_pmap, Hp.
  - (* vec *) destruct v as [ | | | | | | | | | | | | | | | | | | | | | | |[n|] l| | | | | | | | ]; try discriminate.
    apply andb_prop in Ht as [Ht HF]. apply andb_prop in Ht as [Hn Hu]. apply N.eqb_eq in Hn; subst n.
    rewrite forallb_forall in HF.
    assert (Hl : Forall (fun v => rt c d v) l).
    { apply Forall_forall; intros v Hv; apply IHd; [exact Hwf|apply HF, Hv]. }
    destruct (wconcat_ok ser l) as [Hw Hb]; [eapply Forall_impl; [|exact Hl]; intros v [H _]; exact H|].
    cbn [ser ser_len]. unfold ser_u64. rewrite wbytes_seq_wr, wresult_seq_wr, Hw, Hb. split; [reflexivity|].
    apply (parses_pmap _ _ (de_vec c (de c d)) (fun l => SSeq (Some (lenN l)) l)).
    apply parses_vec; [exact Hc| |apply N.ltb_lt, Hu].
    clear - Hl. induction Hl as [|v l [_ H] Hl IH]; constructor; assumption.
  - (* tuple *) destruct v; try discriminate. apply forall2b_Forall2 in Ht. rewrite forallb_forall in Hwf.
    assert (HF : Forall2 (rt c) ds l).
    { clear - H Ht Hwf. induction Ht as [|d v ds l H1 Ht IH]; constructor.
      - inversion H; subst. apply H3; [apply Hwf; left; reflexivity|exact H1].
      - inversion H; subst. apply IH; [assumption|]. intros x Hx; apply Hwf; right; exact Hx. }
    apply rt_seq in HF as [Hw Hp]. apply (wconcat_ok ser l) in Hw as [Hw Hb]. cbn [ser]. rewrite Hb.
    split; [exact Hw|apply parses_pmap, Hp].
  - (* tuple struct *) destruct v; try discriminate. apply forall2b_Forall2 in Ht. rewrite forallb_forall in Hwf.
    assert (HF : Forall2 (rt c) ds l).
    { clear - H Ht Hwf. induction Ht as [|d v ds l H1 Ht IH]; constructor.
      - inversion H; subst. apply H3; [apply Hwf; left; reflexivity|exact H1].
      - inversion H; subst. apply IH; [assumption|]. intros x Hx; apply Hwf; right; exact Hx. }
    apply rt_seq in HF as [Hw Hp]. apply (wconcat_ok ser l) in Hw as [Hw Hb]. cbn [ser]. rewrite Hb.
    split; [exact Hw|apply parses_pmap, Hp].
  - (* map *) destruct v as [ | | | | | | | | | | | | | | | | | | | | | | | | | | |[n|] l| | | | ]; try discriminate.
    destruct (strkeys l) as [m|] eqn:Ek; [|discriminate]. apply strkeys_spec in Ek. subst l.
    apply andb_prop in Ht as [Ht HF]. apply andb_prop in Ht as [Ht Hs]. apply andb_prop in Ht as [Hn Hu].
    apply N.eqb_eq in Hn; subst n. rewrite lenN_map in *. rewrite forallb_forall in HF.
    assert (Hm : Forall (fun kv => str_ok c (fst kv) = true /\ rt c d (snd kv)) m).
    { apply Forall_forall; intros kv Hkv. specialize (HF kv Hkv). apply andb_prop in HF as [H1 H2].
      split; [exact H1|apply IHd; assumption]. }
    cbn [ser ser_len]. unfold ser_u64. rewrite wbytes_seq_wr, wresult_seq_wr, map_map. cbn [fst snd ser_key].
    destruct (wconcat_ok (fun kv => wseq (ser_str (fst kv)) (ser (snd kv))) m) as [Hw Hb].
    { eapply Forall_impl; [|exact Hm]. intros kv [_ [Hw _]]. exact Hw. }
    rewrite Hw, Hb. split; [reflexivity|].
    assert (E : map (fun kv => wbytes (wseq (ser_str (fst kv)) (ser (snd kv)))) m =
                map (fun kv => enc_str (fst kv) ++ wbytes (ser (snd kv))) m).
    { apply map_ext; intros kv. unfold ser_str, ser_u64, enc_str. cbn [wseq wr wbytes]. rewrite <- app_assoc. reflexivity. }
    rewrite E.
    pose proof (parses_map c (de c d) (fun kv => wbytes (ser (snd kv))) m Hc) as P.
    rewrite insert_all_sorted in P; [|exact Hs|apply Forall_forall; intros; constructor].
    rewrite app_nil_l in P.
    apply (parses_pmap _ _ (de_map c (de c d)) (fun m => SMap (Some (lenN m)) (map (fun kv => (SStr (fst kv), snd kv)) m))).
    apply P; [apply N.ltb_lt, Hu|]. eapply Forall_impl; [|exact Hm]. intros kv [H1 [_ H2]]; auto.
  - (* struct *) destruct v as [ | | | | | | | | | | | | | | | | | | | | | | | | | | | |l| | | ]; try discriminate.
    apply andb_prop in Hwf as [Hwf Hfs]. apply andb_prop in Hwf as [Hk Hnd].
    destruct (list_eq_dec string_dec keys (map fst fs)) as [->|]; [|discriminate].
    apply nodupb_NoDup in Hnd. apply forall2b_Forall2 in Ht. rewrite forallb_forall in Hfs.
    assert (HF : Forall2 (fun nf kv => fst nf = fst kv /\ rt c (snd nf) (snd kv)) fs l).
    { clear - H Ht Hfs. induction Ht as [|d v ds l H1 Ht IH]; constructor.
      - apply andb_prop in H1 as [H1 H2]. split; [apply String.eqb_eq, H1|].
        inversion H; subst. apply H4; [apply Hfs; left; reflexivity|exact H2].
      - inversion H; subst. apply IH; [assumption|]. intros x Hx; apply Hfs; right; exact Hx. }
    destruct (wconcat_ok (fun kv : string * sval => ser (snd kv)) l) as [Hw Hb].
    { clear - HF. induction HF as [|nf kv fs l [_ [Hw _]] HF IH]; constructor; assumption. }
    cbn [ser]. rewrite Hw, Hb. split; [reflexivity|].
    assert (El : SStruct l = SStruct (combine (map fst fs) (map snd l))).
    { f_equal. clear - HF. induction HF as [|nf [k v] fs l [E _] HF IH]; cbn [map combine snd]; [reflexivity|].
      cbn [fst] in E; rewrite E, <- IH; reflexivity. }
    rewrite El.
    apply (parses_pmap _ _ _ (fun l => SStruct (combine (map fst fs) l))).
    replace (map fst fs) with (map fst (map (fun nf => (fst nf, de c (snd nf))) fs)) at 1
      by (rewrite map_map; reflexivity).
    assert (Hlen : length fs = length l) by (apply Forall2_length in HF; exact HF).
    apply parses_struct.
    + rewrite map_map; exact Hnd.
    + rewrite !map_length; exact Hlen.
    + rewrite !map_length; exact Hlen.
    + rewrite map_map. cbn [snd]. clear - HF.
      induction HF as [|nf kv fs l [_ [_ Hp]] HF IH]; cbn [map combine]; constructor; [exact Hp|exact IH].
  - (* enum *)
    apply andb_prop in Hwf as [Hn Hvs]. rewrite forallb_forall in Hvs. rewrite Forall_forall in H.
    assert (G : forall i k dp (p : sval), pickN vs i = Some (k, dp) -> has_ty c dp p = true ->
      i < 16384 /\ payload_shape k dp = true /\ wresult (ser p) = WeOk /\
      parses c ERead (de_enum (map (fun v i => pmap (variant_sval (fst v) i) (de c (snd v))) vs))
        (enc_u32 i ++ wbytes (ser p)) (variant_sval k i p)).
    { intros i k dp p Hpick Hp. apply pickN_some in Hpick as Hin. destruct Hin as [Hin Hi2].
      assert (i < 16384) by lia. specialize (Hvs _ Hin). cbn [fst snd] in Hvs.
      apply andb_prop in Hvs as [Hv1 Hv2].
      destruct (H _ Hin p) as [Hw Hps]; [exact Hv2|exact Hp|]. cbn [snd] in Hps.
      split; [assumption|]. split; [assumption|]. split; [assumption|].
      apply parses_enum with (alt := fun i => pmap (variant_sval k i) (de c dp)); [assumption| |apply parses_pmap, Hps].
      rewrite pickN_map, Hpick. reflexivity. }
    destruct v; try discriminate; cbv zeta in Ht; rewrite pickN_map in Ht;
      match type of Ht with context [pickN vs ?i] => destruct (pickN vs i) as [[k dp]|] eqn:Hpick; [|discriminate] end;
      cbn [option_map fst snd] in Ht; destruct k; try discriminate.
    + destruct (G _ _ _ _ Hpick Ht) as (_ & _ & Hw & Hp). split; [reflexivity|].
      cbn [ser ser_u32 wr wbytes]. exact Hp.
    + destruct (G _ _ _ _ Hpick Ht) as (_ & _ & Hw & Hp).
      cbn [ser]. unfold ser_u32. rewrite wbytes_seq_wr, wresult_seq_wr. split; [exact Hw|exact Hp].
    + destruct (G _ _ _ _ Hpick Ht) as (_ & _ & Hw & Hp).
      cbn [ser]. unfold ser_u32. rewrite wbytes_seq_wr, wresult_seq_wr. split; [exact Hw|exact Hp].
    + destruct (G _ _ _ _ Hpick Ht) as (_ & _ & Hw & Hp).
      cbn [ser]. unfold ser_u32. rewrite wbytes_seq_wr, wresult_seq_wr. split; [exact Hw|exact Hp].
  - (* BigUint *) destruct v as [ | | | | | | | | | | | | | | | | | | | | | | |[n|] l| | | | | | | | ]; try discriminate.
    destruct l as [|v [|]]; try discriminate.
    apply vec_u8_ok_spec in Ht as (bs & -> & _ & Hl); [|exact Hc].
    destruct (ser_vec_u8 bs) as [Hw Hb].
    change (ser (SSeq None [vec_u8 bs])) with (wseq (ser (vec_u8 bs)) WDone).
    rewrite wresult_wseq, wbytes_wseq_done, Hw, Hb by exact Hw. cbn [wbytes wresult]. rewrite app_nil_r.
    split; [reflexivity|]. apply (parses_pmap _ _ _ big_sval), parses_vec_u8; assumption.
  - (* BigInt *) destruct v as [ | | | | | | | | | | | | | | | | | | | | | | |[n|] l| | | | | | | | ]; try discriminate.
    destruct l as [|v [|]]; try discriminate.
    apply vec_u8_ok_spec in Ht as (bs & -> & _ & Hl); [|exact Hc].
    destruct (ser_vec_u8 bs) as [Hw Hb].
    change (ser (SSeq None [vec_u8 bs])) with (wseq (ser (vec_u8 bs)) WDone).
    rewrite wresult_wseq, wbytes_wseq_done, Hw, Hb by exact Hw. cbn [wbytes wresult]. rewrite app_nil_r.
    split; [reflexivity|]. apply (parses_pmap _ _ _ big_sval), parses_vec_u8; assumption.
  - (* BigDecimal *) destruct v as [ | | | | | | | | | | | | | | | | | | | | | | |[n|] l| | | | | | | | ]; try discriminate.
    assert (Hz : l = [SU8 0] \/ exists w s, l = [w; SI64 s] /\
       vec_u8_ok c w && in_s 64 s && match w with SSeq (Some 0) _ => false | _ => true end = true).
    { clear - Ht. destruct l as [|w l]; [discriminate|]. destruct l as [|x l].
      - left. destruct w; try discriminate. destruct n; [reflexivity|discriminate].
      - right. exists w. destruct x; try (destruct w; try discriminate; match goal with H : match ?n with _ => _ end = true |- _ => destruct n; discriminate | _ => idtac end; fail).
        exists z. destruct l; [|destruct w; try discriminate; match goal with H : match ?n with _ => _ end = true |- _ => destruct n; discriminate | _ => idtac end].
        split; [reflexivity|]. destruct w; try discriminate Ht; try exact Ht.
        destruct n; exact Ht. }
    destruct Hz as [->|(w & s & -> & H)].
    + cbn [ser ser_len]. split; [reflexivity|]. cbn [map ser wconcat fold_right wseq wr wbytes app].
      apply (parses_pmap _ _ (de_big_decimal c) (fun p => big_decimal_sval (fst p) (snd p)) [0] ([], 0%Z)).
      eapply (parses_bind_ret _ _ _ _ _ []); [|reflexivity].
      apply (parses_vec_u8 c [] Hc). apply N.neq_0_lt_0, N.pow_nonzero; lia.
    + apply andb_prop in H as [H H0]. apply andb_prop in H as [H1 H2].
      apply vec_u8_ok_spec in H1 as (bs & -> & _ & Hl); [|exact Hc].
      destruct (ser_vec_u8 bs) as [Hw Hb].
      change (ser (SSeq None [vec_u8 bs; SI64 s])) with (wseq (ser (vec_u8 bs)) (wseq (ser_i64 s) WDone)).
      rewrite wresult_wseq, wbytes_wseq_done, Hw, Hb by exact Hw. cbn [ser_i64 wseq wr wbytes wresult].
      rewrite app_nil_r. split; [reflexivity|].
      assert (Hne : bs <> []) by (intros ->; cbn in H0; discriminate).
      assert (Es : SSeq None [vec_u8 bs; SI64 s] = big_decimal_sval bs s) by (destruct bs; [congruence|reflexivity]).
      rewrite Es.
      apply (parses_pmap _ _ (de_big_decimal c) (fun p => big_decimal_sval (fst p) (snd p)) _ (bs, s)).
      eapply parses_bind; [apply parses_vec_u8; assumption|].
      destruct bs as [|b bs]; [congruence|]. eapply parses_bind_ret; [apply parses_de_i64, H2|reflexivity].
  - (* Date *) destruct v; try discriminate. destruct l as [|[] l]; try discriminate.
    destruct l as [|[] l]; try discriminate. destruct l; try discriminate.
    apply andb_prop in Ht as [Ht Hov]. apply andb_prop in Ht as [H1 H2].
    destruct (rt_date c z n H1) as (y' & o' & Es & Hp); [lia|exact Hov|].
    cbn [ser map wconcat fold_right ser_i32 ser_u16 wseq wr wbytes]. split; [reflexivity|].
    rewrite app_nil_r, <- Es.
    apply (parses_pmap _ _ (de_date c) (fun p => date_sval c (fst p) (snd p)) _ (y', o') Hp).
  - (* DateTime *) destruct v as [ | | | | | | | | | | | | | | | | | | | | | | | | | | | |l| | | ]; try discriminate.
    destruct l as [|[k1 []] l]; try discriminate. destruct l as [|[k2 []] l]; try discriminate.
    destruct l; try discriminate.
    apply andb_prop in Ht as [Ht H4]. apply andb_prop in Ht as [Ht H3]. apply andb_prop in Ht as [H1 H2].
    apply String.eqb_eq in H1, H2. subst.
    cbn [ser map wconcat fold_right snd ser_i64 ser_u32 wseq wr wbytes]. split; [reflexivity|].
    rewrite app_nil_r.
    apply (parses_pmap _ _ de_date_time (fun p => date_time_sval (fst p) (snd p)) _ (z, n)).
    eapply parses_bind; [apply parses_de_i64, H3|]. eapply parses_bind_ret; [apply parses_u32; lia|reflexivity].
Qed.
