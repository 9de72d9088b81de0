(** * Proofs about Serde.v: errors, panics and memory requests on arbitrary input. *)
From Coq Require Import String.
From Verif Require Import Base BaseFacts Varint VarintFacts Utf8 SpecVarint SpecRequest SpecDty
  Serde Typing PrimFacts SerdeFacts SerdeMore SerdeSize Consume.
Local Open Scope list_scope.
Local Open Scope N_scope.

(** ** How a decoder can end other than by success *)
Definition ends {A} (c : cfg) (E : derr -> Prop) (Q : panic -> Prop) (p : prog A) : Prop :=
  forall s, bytes_ok s -> match run c p s with OOk _ _ => True | OErr e => E e | OPanic q => Q q end.

Lemma ends_Ret {A} c E Q (a : A) : ends c E Q (Ret a).
Proof. intros s _; exact I. Qed.
Lemma ends_Fail {A} c (E : derr -> Prop) Q e : E e -> ends c E Q (@Fail A e).
Proof. intros H s _; exact H. Qed.
Lemma ends_Crash {A} c E (Q : panic -> Prop) q : Q q -> ends c E Q (@Crash A q).
Proof. intros H s _; exact H. Qed.
Lemma ends_bind_dep {A B} c E Q (p : prog A) (f : A -> prog B) (P : A -> Prop) :
  ends c E Q p -> yields c p P -> (forall a, P a -> ends c E Q (f a)) -> ends c E Q (bind p f).
Proof.
  intros Hp Hy Hf s Hs. rewrite run_bind. specialize (Hp s Hs).
  destruct (run c p s) as [a r|e|q] eqn:Er; cbn [obind]; try exact Hp.
  apply (Hf a); [eapply Hy; [exact Hs|exact Er]|eapply run_rest; [exact Hs|exact Er]].
Qed.
Lemma ends_bind {A B} c E Q (p : prog A) (f : A -> prog B) :
  ends c E Q p -> (forall a, ends c E Q (f a)) -> ends c E Q (bind p f).
Proof.
  intros Hp Hf; apply ends_bind_dep with (P := fun _ => True); [exact Hp|intros s a r _ _; exact I|auto].
Qed.
Lemma ends_pmap {A B} c E Q (p : prog A) (f : A -> B) : ends c E Q p -> ends c E Q (pmap f p).
Proof. intros H; apply ends_bind; [exact H|]; intros; apply ends_Ret. Qed.
Lemma ends_ReadExact {A} c (E : derr -> Prop) Q n e (k : list N -> prog A) :
  E e -> (forall bs, lenN bs = n -> ends c E Q (k bs)) -> ends c E Q (ReadExact n e k).
Proof.
  intros He Hk s Hs; cbn [run]. destruct (N.ltb_spec (lenN s) n); [exact He|].
  apply Hk; [rewrite lenN_takeN; lia|apply Forall_dropN, Hs].
Qed.
Lemma ends_ReadLimit {A} c (E : derr -> Prop) Q n e (k : list N -> prog A) :
  (forall bs, ends c E Q (k bs)) -> ends c E Q (ReadLimit n e k).
Proof. intros Hk s Hs; cbn [run]. apply Hk, Forall_dropN, Hs. Qed.
Lemma ends_ext {A} c E Q (p q : prog A) : (forall s, run c p s = run c q s) -> ends c E Q q -> ends c E Q p.
Proof. intros H Hq s Hs; rewrite H; apply Hq, Hs. Qed.
Lemma ends_weaken {A} c (E E' : derr -> Prop) (Q Q' : panic -> Prop) (p : prog A) :
  ends c E Q p -> (forall e, E e -> E' e) -> (forall q, Q q -> Q' q) -> ends c E' Q' p.
Proof. intros H HE HQ s Hs. specialize (H s Hs). destruct (run c p s); auto. Qed.
Lemma ends_foldN {S} c E Q n (step : S -> prog S) s : (forall s, ends c E Q (step s)) -> ends c E Q (foldN n step s).
Proof.
  intros H. destruct n as [|n]; cbn [foldN]; [apply ends_Ret|]. revert s.
  induction n as [n IH|n IH|]; intros s; cbn [fold_pos]; auto using ends_bind.
Qed.
Lemma ends_repeatN {A} c E Q n (p : prog A) : ends c E Q p -> ends c E Q (repeatN n p).
Proof.
  intros H; apply ends_bind; [|intros; apply ends_Ret]. apply ends_foldN; intros s.
  apply ends_bind; [exact H|]; intros; apply ends_Ret.
Qed.
Lemma ends_sequence {A} c E Q (ps : list (prog A)) : Forall (ends c E Q) ps -> ends c E Q (sequence ps).
Proof.
  induction 1 as [|p ps Hp _ IH]; cbn [sequence]; [apply ends_Ret|].
  apply ends_bind; [exact Hp|]; intros a. apply ends_bind; [exact IH|]; intros; apply ends_Ret.
Qed.

Ltac ends_varint He :=
  unfold dec_u16, dec_u32, dec_u64, dec_prefix; cbn [bind];
  apply ends_ReadExact; [exact He|]; intros ? _; cbv zeta;
  repeat match goal with |- ends _ _ _ (if ?b then _ else _) => destruct b end;
  first [apply ends_Ret | apply ends_ReadExact; [exact He|]; intros; apply ends_Ret].
Lemma ends_u16 c (E : derr -> Prop) Q e : E e -> ends c E Q (dec_u16 e). Proof. intros He; ends_varint He. Qed.
Lemma ends_u32 c (E : derr -> Prop) Q e : E e -> ends c E Q (dec_u32 e). Proof. intros He; ends_varint He. Qed.
Lemma ends_u64 c (E : derr -> Prop) Q e : E e -> ends c E Q (dec_u64 e). Proof. intros He; ends_varint He. Qed.
Lemma ends_byte c (E : derr -> Prop) Q : E ERead -> ends c E Q de_byte.
Proof. intros He; apply ends_ReadExact; [exact He|]; intros; apply ends_Ret. Qed.
Lemma ends_bool c (E : derr -> Prop) Q : E ERead -> ends c E Q de_bool.
Proof.
  intros He; apply ends_bind; [apply ends_byte, He|]. intros b.
  destruct (b =? 0); [apply ends_Ret|]. destruct (b =? 1); [apply ends_Ret|apply ends_Fail, He].
Qed.
Lemma ends_string c (E : derr -> Prop) Q : E ERead -> ends c E Q (de_string c).
Proof.
  intros He; apply ends_bind; [apply ends_u64, He|]. intros n. destruct (n <? STR_MAX).
  - apply ends_ReadExact; [exact He|]. intros bs _. destruct (utf8_valid bs); [apply ends_Ret|apply ends_Fail, He].
  - apply ends_ReadLimit. intros bs. destruct (utf8_valid bs); [|apply ends_Fail, He].
    destruct (_ =? _); [apply ends_Ret|apply ends_Fail, He].
Qed.
Lemma ends_byte_buf c (E : derr -> Prop) Q : wf_cfg c -> 4096 <= heap_limit c -> E ERead -> ends c E Q (de_byte_buf c).
Proof.
  intros Hw Hh He; rewrite de_byte_buf_unfold. apply ends_bind; [apply ends_u64, He|].
  intros n s _. rewrite buf_body_run by assumption. destruct (lenN s <? _); [exact He|exact I].
Qed.
Lemma ends_vec {A} c (E : derr -> Prop) Q (p : prog A) : E ERead -> ends c E Q p -> ends c E Q (de_vec c p).
Proof. intros He Hp; apply ends_bind; [apply ends_u64, He|]. intros n; apply ends_repeatN, Hp. Qed.
Lemma ends_map {A} c (E : derr -> Prop) Q (p : prog A) : E ERead -> ends c E Q p -> ends c E Q (de_map c p).
Proof.
  intros He Hp; apply ends_bind; [apply ends_u64, He|]. intros n; apply ends_foldN. intros m.
  apply ends_bind; [apply ends_string, He|]. intros k. apply ends_bind; [exact Hp|]. intros; apply ends_Ret.
Qed.

(** Which errors and panics a type admits. *)
Definition err_of (c : cfg) (d : dty) (e : derr) : Prop :=
  e = ERead \/ (e = ECharSize /\ occurs is_char d = true) \/
  (e = EMsg /\ (occurs is_enum d = true \/ (occurs is_size d = true /\ usize_bits c = 32))).
Definition panic_of (c : cfg) (d : dty) (q : panic) : Prop :=
  q = POverflow /\ overflow_checks c = true /\ occurs is_date d = true.

Lemma ends_child {A} c d d' (p : prog A) : ends c (err_of c d') (panic_of c d') p ->
  (forall f, occurs f d' = true -> occurs f d = true) -> ends c (err_of c d) (panic_of c d) p.
Proof.
  intros H Ho; eapply ends_weaken; [exact H| |].
  - intros e [->|[[-> Hc]|[-> [He|[Hs H32]]]]]; [left; reflexivity|right; left; auto|right; right; auto..].
  - intros q (-> & Hc & Hd); split; auto.
Qed.
Lemma existsb_In {A} (f : A -> bool) l a : In a l -> f a = true -> existsb f l = true.
Proof. intros Hi Hf; apply existsb_exists; exists a; auto. Qed.

Lemma ends_de c d : wf_cfg c -> 4096 <= heap_limit c -> wf_dty d = true ->
  ends c (err_of c d) (panic_of c d) (de c d).
Proof.
  intros Hw Hh. assert (He : forall d, err_of c d ERead) by (left; reflexivity).
  induction d using dty_ind2; cbn [wf_dty]; intros Hwf; try discriminate; cbn [de].
  all: try (apply ends_pmap; first [apply ends_bool, He | apply ends_byte, He | apply ends_u16, He | apply ends_u32, He | apply ends_u64, He | apply ends_string, He | apply ends_byte_buf; auto
      | apply ends_pmap; first [apply ends_byte, He | apply ends_u16, He | apply ends_u32, He | apply ends_u64, He]
      | apply ends_ReadExact; [apply He|intros; apply ends_Ret]]).
  all: try apply ends_Ret.
  - (* isize *)
    apply ends_pmap. destruct (usize_bits_cases c Hw) as [E|E].
    + apply ends_bind; [apply ends_pmap, ends_u64, He|]. intros z. destruct (in_s _ z); [apply ends_Ret|apply ends_Fail].
      right; right; split; [reflexivity|]; right; auto.
    + eapply ends_bind_dep; [apply ends_pmap, ends_u64, He|apply yields_i64|]. cbv beta. intros z Hz. rewrite E, Hz. apply ends_Ret.
  - apply ends_pmap. destruct (usize_bits_cases c Hw) as [E|E].
    + apply ends_bind; [apply ends_u64, He|]. intros z. destruct (z <? _); [apply ends_Ret|apply ends_Fail].
      right; right; split; [reflexivity|]; right; auto.
    + eapply ends_bind_dep; [apply ends_u64, He|apply yields_u64|]. cbv beta. intros z Hz. rewrite E. apply N.ltb_lt in Hz; rewrite Hz. apply ends_Ret.
  - apply ends_pmap, ends_bind; [apply ends_string, He|]. intros s. destruct (next_char s); [apply ends_Ret|apply ends_Fail].
    right; left; auto.
  - apply ends_pmap, ends_bind; [apply ends_bool, He|]. intros [|]; [|apply ends_Ret]. apply ends_pmap.
    eapply ends_child; [apply IHd, Hwf|]. intros f Hf; cbn [occurs]; rewrite Hf; apply orb_true_r.
  - apply ends_pmap. eapply ends_child; [apply IHd, Hwf|]. intros f Hf; cbn [occurs]; rewrite Hf; apply orb_true_r.
  - apply ends_pmap, ends_vec; [apply He|]. eapply ends_child; [apply IHd, Hwf|]. intros f Hf; cbn [occurs]; rewrite Hf; apply orb_true_r.
  - apply ends_pmap, ends_sequence, Forall_map, Forall_forall. intros d Hd. rewrite Forall_forall in H. rewrite forallb_forall in Hwf.
    eapply ends_child; [apply (H d Hd), Hwf, Hd|]. intros f Hf; cbn [occurs]. rewrite (existsb_In _ _ _ Hd Hf). apply orb_true_r.
  - apply ends_pmap, ends_sequence, Forall_map, Forall_forall. intros d Hd. rewrite Forall_forall in H. rewrite forallb_forall in Hwf.
    eapply ends_child; [apply (H d Hd), Hwf, Hd|]. intros f Hf; cbn [occurs]. rewrite (existsb_In _ _ _ Hd Hf). apply orb_true_r.
  - apply ends_pmap, ends_map; [apply He|]. eapply ends_child; [apply IHd, Hwf|]. intros f Hf; cbn [occurs]; rewrite Hf; apply orb_true_r.
  - apply andb_prop in Hwf as [Hwf Hfs]. apply andb_prop in Hwf as [Hk Hnd].
    destruct (list_eq_dec string_dec keys (map fst fs)) as [->|]; [|discriminate].
    apply nodupb_NoDup in Hnd. rewrite forallb_forall in Hfs.
    fold (de c (DStruct (map fst fs) fs)). eapply ends_ext; [intros; apply run_de_struct, Hnd|].
    apply ends_pmap, ends_sequence, Forall_map, Forall_forall. intros d Hd. rewrite Forall_forall in H.
    eapply ends_child; [apply (H d Hd), Hfs, Hd|]. intros f Hf; cbn [occurs].
    rewrite (existsb_In (fun nf => occurs f (snd nf)) _ _ Hd Hf). apply orb_true_r.
  - apply andb_prop in Hwf as [Hn Hvs]. rewrite forallb_forall in Hvs. rewrite Forall_forall in H.
    apply ends_bind; [apply ends_u16, He|]. intros i. rewrite pickN_map.
    destruct (pickN vs i) as [[k dp]|] eqn:E; [|apply ends_Fail; right; right; auto]. cbn [option_map fst snd].
    apply pickN_some in E as [Hin _]. specialize (Hvs _ Hin). apply andb_prop in Hvs as [_ Hv]. apply ends_pmap.
    eapply ends_child; [apply (H _ Hin), Hv|]. intros f Hf; cbn [occurs].
    rewrite (existsb_In (fun kd => occurs f (snd kd)) _ _ Hin Hf). apply orb_true_r.
  - apply ends_pmap, ends_vec; [apply He|apply ends_byte, He].
  - apply ends_pmap, ends_vec; [apply He|apply ends_byte, He].
  - apply ends_pmap, ends_bind; [apply ends_vec; [apply He|apply ends_byte, He]|]. intros [|b bs]; [apply ends_Ret|].
    apply ends_bind; [apply ends_pmap, ends_u64, He|]. intros; apply ends_Ret.
  - assert (Ho : overflow_checks c = true -> panic_of c DDate POverflow) by (intros; split; auto).
    apply ends_pmap, ends_bind; [apply ends_pmap, ends_u32, He|]. intros y0. apply ends_bind.
    { unfold arith_s. destruct (in_s _ _); [apply ends_Ret|]. destruct (overflow_checks c); [apply ends_Crash, Ho, eq_refl|apply ends_Ret]. }
    intros y. apply ends_bind; [apply ends_u16, He|]. intros o0. apply ends_bind.
    { unfold arith_u. destruct (_ && _); [apply ends_Ret|]. destruct (overflow_checks c); [apply ends_Crash, Ho, eq_refl|apply ends_Ret]. }
    intros o. apply ends_Ret.
  - apply ends_pmap, ends_bind; [apply ends_pmap, ends_u64, He|]. intros t. apply ends_bind; [apply ends_u32, He|]. intros; apply ends_Ret.
Qed.

(** ** Memory requests *)
Fixpoint small {A} (B : N) (p : prog A) : Prop :=
  match p with
  | Ret _ | Fail _ | Crash _ => True
  | ReadExact n _ k => n <= B /\ forall bs, small B (k bs)
  | ReadLimit n _ k => forall bs, small B (k bs)
  | Alloc n k => n <= B /\ small B k
  end.
Lemma small_requests {A} B c (p : prog A) s : small B p -> Forall (fun n => n <= B) (requests c p s).
Proof.
  revert s; induction p as [| | |n e k IH|n e k IH|n k IH]; intros s; cbn [small requests]; try (intros; constructor).
  - destruct H; assumption.
  - destruct H as [_ H]. destruct (lenN s <? n); [constructor|apply IH, H].
  - intros H; apply IH, H.
  - destruct H; assumption.
  - destruct H as [_ H]. destruct (alloc_result c n); [constructor|apply IH, H].
Qed.
Lemma small_bind {A C} B (p : prog A) (f : A -> prog C) : small B p -> (forall a, small B (f a)) -> small B (bind p f).
Proof.
  induction p as [| | |n e k IH|n e k IH|n k IH]; cbn [small bind]; intros Hp Hf; auto.
  - destruct Hp; auto.
  - destruct Hp; auto.
Qed.
Lemma small_pmap {A C} B (p : prog A) (f : A -> C) : small B p -> small B (pmap f p).
Proof. intros H; apply small_bind; [exact H|]; intros; exact I. Qed.
Lemma small_foldN {S} B n (step : S -> prog S) s : (forall s, small B (step s)) -> small B (foldN n step s).
Proof.
  intros H. destruct n as [|n]; cbn [foldN]; [exact I|]. revert s.
  induction n as [n IH|n IH|]; intros s; cbn [fold_pos]; auto using small_bind.
Qed.
Lemma small_repeatN {A} B n (p : prog A) : small B p -> small B (repeatN n p).
Proof.
  intros H; apply small_bind; [|intros; exact I]. apply small_foldN; intros s.
  apply small_bind; [exact H|]; intros; exact I.
Qed.
Lemma small_sequence {A} B (ps : list (prog A)) : Forall (small B) ps -> small B (sequence ps).
Proof.
  induction 1 as [|p ps Hp _ IH]; cbn [sequence]; [exact I|].
  apply small_bind; [exact Hp|]; intros a. apply small_bind; [exact IH|]; intros; exact I.
Qed.
Lemma small_byte : small 4096 de_byte. Proof. split; [lia|intros; exact I]. Qed.
Ltac small_varint :=
  unfold dec_u16, dec_u32, dec_u64; apply small_bind; [split; [lia|intros; exact I]|]; intros p; cbv zeta;
  repeat match goal with |- small _ (if ?b then _ else _) => destruct b end;
  first [exact I | split; [lia|intros; exact I]].
Lemma small_u16 e : small 4096 (dec_u16 e). Proof. small_varint. Qed.
Lemma small_u32 e : small 4096 (dec_u32 e). Proof. small_varint. Qed.
Lemma small_u64 e : small 4096 (dec_u64 e). Proof. small_varint. Qed.
Lemma small_bool : small 4096 de_bool.
Proof. apply small_bind; [apply small_byte|]. intros b. destruct (b =? 0); [exact I|]. destruct (b =? 1); exact I. Qed.
Lemma small_string c : small 4096 (de_string c).
Proof.
  apply small_bind; [apply small_u64|]. intros n. destruct (N.ltb_spec n STR_MAX).
  - split; [unfold STR_MAX in *; lia|]. intros bs. destruct (utf8_valid bs); exact I.
  - intros bs. destruct (utf8_valid bs); [|exact I]. destruct (_ =? _); exact I.
Qed.
Lemma small_byte_buf c : small 4096 (de_byte_buf c).
Proof.
  apply small_bind; [apply small_u64|]. intros n. destruct (N.ltb_spec BUF_MAX n).
  - split; [unfold BUF_MAX; lia|]. apply small_bind; [|intros [r|r]; exact I]. apply small_foldN.
    intros [[[acc rl] pos]|r]; cbn [buf_step]; [|exact I]. destruct (rl <? _); [|exact I].
    split; [unfold BUF_MAX; lia|intros; exact I].
  - split; [assumption|]. split; [assumption|intros; exact I].
Qed.
Lemma small_vec {A} c (p : prog A) : small 4096 p -> small 4096 (de_vec c p).
Proof. intros H; apply small_bind; [apply small_u64|]; intros; apply small_repeatN, H. Qed.
Lemma small_struct_loop {A} B keys (fs : list (string * prog A)) slots :
  Forall (fun nf => small B (snd nf)) fs -> small B (struct_loop keys fs slots).
Proof.
  intros Hf; revert slots; induction keys as [|k ks IH]; intros slots; cbn [struct_loop]; [exact I|].
  destruct (find_field k fs) as [[i p]|] eqn:E; [|exact I]. apply find_field_in, nth_error_In in E as Hin.
  destruct (nth_error slots i) as [[x|]|]; try exact I. apply small_bind; [|intros; apply IH].
  rewrite Forall_forall in Hf. apply (Hf _ Hin).
Qed.
Lemma small_fill_missing {A} B (miss slots : list (option A)) : small B (fill_missing miss slots).
Proof.
  revert slots; induction miss as [|m ms IH]; intros [|s ss]; cbn [fill_missing]; try exact I.
  destruct s as [a|]; [apply small_bind; [apply IH|intros; exact I]|].
  destruct m as [a|]; [apply small_bind; [apply IH|intros; exact I]|exact I].
Qed.
Lemma small_de c d : small 4096 (de c d).
Proof.
  induction d using dty_ind2; cbn [de]; try exact I.
  all: try (apply small_pmap; first [apply small_bool | apply small_byte | apply small_u16 | apply small_u32 | apply small_u64 | apply small_string | apply small_byte_buf
      | apply small_pmap; first [apply small_byte | apply small_u16 | apply small_u32 | apply small_u64]
      | split; [lia|intros; exact I]]).
  - apply small_pmap, small_bind; [apply small_pmap, small_u64|]. intros z. destruct (in_s _ z); exact I.
  - apply small_pmap, small_bind; [apply small_u64|]. intros z. destruct (z <? _); exact I.
  - apply small_pmap, small_bind; [apply small_string|]. intros s. destruct (next_char s); exact I.
  - apply small_pmap, small_bind; [apply small_bool|]. intros [|]; [apply small_pmap, IHd|exact I].
  - apply small_pmap, IHd.
  - apply small_pmap, small_vec, IHd.
  - apply small_pmap, small_sequence, Forall_map; assumption.
  - apply small_pmap, small_sequence, Forall_map; assumption.
  - apply small_pmap, small_bind; [apply small_u64|]. intros n; apply small_foldN. intros m.
    apply small_bind; [apply small_string|]. intros k. apply small_bind; [exact IHd|]. intros; exact I.
  - apply small_pmap, small_bind; [|intros; apply small_fill_missing].
    apply small_struct_loop, Forall_map. eapply Forall_impl; [|exact H]. cbn [snd]. auto.
  - apply small_bind; [apply small_u16|]. intros i. rewrite pickN_map.
    destruct (pickN vs i) as [[k dp]|] eqn:E; [|exact I]. cbn [option_map fst snd].
    apply pickN_some in E as [Hin _]. rewrite Forall_forall in H. apply small_pmap, (H _ Hin).
  - apply small_pmap, small_vec, small_byte.
  - apply small_pmap, small_vec, small_byte.
  - apply small_pmap, small_bind; [apply small_vec, small_byte|]. intros [|b bs]; [exact I|].
    apply small_bind; [apply small_pmap, small_u64|]. intros; exact I.
  - apply small_pmap, small_bind; [apply small_pmap, small_u32|]. intros y0. apply small_bind; [destruct (arith_s _ _ _); exact I|].
    intros y. apply small_bind; [apply small_u16|]. intros o0. apply small_bind; [destruct (arith_u _ _ _); exact I|]. intros; exact I.
  - apply small_pmap, small_bind; [apply small_pmap, small_u64|]. intros t. apply small_bind; [apply small_u32|]. intros; exact I.
Qed.

(** ** Values that occupy at least one byte *)
Lemma run_suffix {A} c (p : prog A) s a r : run c p s = OOk a r -> exists u, s = u ++ r.
Proof.
  revert s; induction p as [| | |n e k IH|n e k IH|n k IH]; intros s; cbn [run]; try discriminate.
  - intros E; injection E as <- <-; exists []; reflexivity.
  - destruct (lenN s <? n); [discriminate|]. intros E; apply IH in E as (u & E).
    exists (takeN n s ++ u). rewrite <- app_assoc, <- E. symmetry; apply take_drop.
  - intros E; apply IH in E as (u & E).
    exists (takeN n s ++ u). rewrite <- app_assoc, <- E. symmetry; apply take_drop.
  - destruct (alloc_result c n); [discriminate|apply IH].
Qed.
Lemma consumes_any {A} c (p : prog A) : consumes c p (fun _ _ => True).
Proof. intros s b r Hs E. apply run_suffix in E as (u & ->). exists (lenN u); split; [apply lenN_app|exact I]. Qed.
Lemma consumes_then {A B} c (p : prog A) (f : A -> prog B) :
  consumes c p (fun _ n => 1 <= n) -> consumes c (bind p f) (fun _ n => 1 <= n).
Proof.
  intros Hp; eapply consumes_bind; [exact Hp|]. cbv beta. intros a n Hn.
  eapply consumes_weaken; [apply consumes_any|]. cbv beta; intros; lia.
Qed.
Lemma consumes_after {A B} c (p : prog A) (f : A -> prog B) :
  (forall a, consumes c (f a) (fun _ n => 1 <= n)) -> consumes c (bind p f) (fun _ n => 1 <= n).
Proof.
  intros Hf; eapply consumes_bind; [apply consumes_any|]. cbv beta. intros a n _.
  eapply consumes_weaken; [apply Hf|]. cbv beta; intros; lia.
Qed.
Lemma consumes_pos_sequence {A} c (ps : list (prog A)) (p : prog A) : In p ps ->
  consumes c p (fun _ n => 1 <= n) -> consumes c (sequence ps) (fun _ n => 1 <= n).
Proof.
  induction ps as [|q ps IH]; cbn [sequence]; [intros []|]. intros [->|Hin] Hp.
  - apply consumes_then, Hp.
  - apply consumes_after. intros a. apply consumes_then, IH; assumption.
Qed.
Lemma consumes_read {A} c n e (k : list N -> prog A) : 1 <= n -> consumes c (ReadExact n e k) (fun _ m => 1 <= m).
Proof.
  intros Hn; apply consumes_ReadExact. intros bs _ _. eapply consumes_weaken; [apply consumes_any|]. cbv beta; intros; lia.
Qed.
(** Only the struct case needs well-formedness: a FIELDS table out of step with the visitor
    would read nothing. *)
Lemma occupies_de c d : wf_dty d = true -> occupies d = true -> consumes c (de c d) (fun _ n => 1 <= n).
Proof.
  induction d using dty_ind2; cbn [wf_dty occupies]; intros Hwf Ho; try discriminate; cbn [de].
  all: try (apply consumes_then, consumes_read; lia).
  all: try (apply consumes_then, consumes_then, consumes_read; lia).
  all: try (apply consumes_then, consumes_then, consumes_then, consumes_read; lia).
  all: try (apply consumes_then, consumes_then, consumes_then, consumes_then, consumes_read; lia).
  - apply consumes_then, IHd; assumption.
  - apply existsb_exists in Ho as (d & Hd & Ho). rewrite forallb_forall in Hwf. rewrite Forall_forall in H.
    apply consumes_then. apply (consumes_pos_sequence c _ (de c d)); [apply in_map, Hd|]. apply H; auto.
  - apply existsb_exists in Ho as (d & Hd & Ho). rewrite forallb_forall in Hwf. rewrite Forall_forall in H.
    apply consumes_then. apply (consumes_pos_sequence c _ (de c d)); [apply in_map, Hd|]. apply H; auto.
  - apply andb_prop in Hwf as [Hwf Hfs]. apply andb_prop in Hwf as [Hk Hnd].
    destruct (list_eq_dec string_dec keys (map fst fs)) as [->|]; [|discriminate].
    apply nodupb_NoDup in Hnd. rewrite forallb_forall in Hfs. rewrite Forall_forall in H.
    apply existsb_exists in Ho as (d & Hd & Ho).
    fold (de c (DStruct (map fst fs) fs)). eapply consumes_ext; [intros; apply run_de_struct, Hnd|].
    apply consumes_then. apply (consumes_pos_sequence c _ (de c (snd d))); [apply in_map_iff; exists d; auto|].
    apply (H d); auto.
Qed.
