(** * Equality of bodies: C63. *)
From Verif Require Import Base BaseFacts Serde Header Body BodyFacts SpecBody Eq SpecEq EqFacts ExSerde.
Local Open Scope list_scope.
Local Open Scope N_scope.

(** [==] of floats: neither is NaN and they are the same number. *)
Theorem C63_floats :
  (forall a b, a < 2 ^ 32 -> b < 2 ^ 32 ->
     (f32_eq a b = true <-> ~ nan 23 31 a /\ ~ nan 23 31 b /\ number 23 31 a = number 23 31 b)) /\
  (forall a b, a < 2 ^ 64 -> b < 2 ^ 64 ->
     (f64_eq a b = true <-> ~ nan 52 63 a /\ ~ nan 52 63 b /\ number 52 63 a = number 52 63 b)).
Proof. split; intros a b Ha Hb; apply float_eq_iff; solve [reflexivity|assumption]. Qed.
(** Two bodies are equal iff neither contains a NaN and they differ at most in signs of zeros. *)
Theorem C63_equality : forall c a b, body_ok c a = true -> body_ok c b = true ->
  (body_eq a b = true <-> no_nan a = true /\ no_nan b = true /\ plus_zero a = plus_zero b).
Proof. intros c a b. exact (body_eq_iff c a b). Qed.
(** A body read back equals the body written iff it contains no NaN. *)
Theorem C63_roundtrip : forall c h b rest, wf_cfg c -> 4096 <= heap_limit c ->
  validate h b = true -> body_ok c b = true -> body_fits c b = true ->
  exists b', run c (bde c h) (wbytes (bser c b) ++ rest) = OOk b' rest /\
    (body_eq b b' = true <-> no_nan b = true) /\ (body_eq b' b = true <-> no_nan b = true).
Proof.
  intros c h b rest Hc Hh H1 H2 H3. destruct (body_roundtrip c h b Hc Hh H1 H2 H3) as [_ [Hp _]].
  exists b. split; [apply Hp|]. rewrite (body_eq_iff c b b) by assumption. tauto.
Qed.
(** Bodies of one header with the same bytes are equal iff they contain no NaN. *)
Theorem C63_same_bytes : forall c h a b, wf_cfg c -> 4096 <= heap_limit c ->
  validate h a = true -> body_ok c a = true -> body_fits c a = true ->
  validate h b = true -> body_ok c b = true -> body_fits c b = true ->
  wbytes (bser c a) = wbytes (bser c b) -> (body_eq a b = true <-> no_nan a = true).
Proof.
  intros c h a b Hc Hh Va Oa Fa Vb Ob Fb E. rewrite <- (body_eq_same_bytes c h a b Hc Hh Va Oa Fa Vb Ob Fb E).
  rewrite (body_eq_iff c a a) by assumption. tauto.
Qed.
(** Equal bodies have the same headers and encodings of the same length; the same bytes too, unless a
    negative zero is involved. *)
Theorem C63_equal_alike : forall c a b, body_ok c a = true -> body_ok c b = true -> body_eq a b = true ->
  (forall h, validate h a = validate h b) /\
  wresult (bser c a) = wresult (bser c b) /\ lenN (wbytes (bser c a)) = lenN (wbytes (bser c b)) /\
  (no_neg_zero a = true -> no_neg_zero b = true -> wbytes (bser c a) = wbytes (bser c b)).
Proof.
  intros c a b Ha Hb E. destruct (body_eq_alike c a b Ha Hb E) as (H1 & H2 & H3 & H4).
  split; [exact H1|]. split; [exact H2|]. split; [exact H3|]. intros Na Nb. rewrite (H4 Na Nb). reflexivity.
Qed.
Theorem C63_equal_bytes_refuted : exists c a b, wf_cfg c /\ body_ok c a = true /\ body_ok c b = true /\
  body_eq a b = true /\ wbytes (bser c a) <> wbytes (bser c b).
Proof.
  exists c64, (BFloat32 0), (BFloat32 (2 ^ 31)). split; [repeat split; cbn; lia|]. split; [reflexivity|]. split; [reflexivity|].
  split; [reflexivity|]. vm_compute. discriminate.
Qed.
Theorem C63_reflexive_refuted : exists c h b, wf_cfg c /\ 4096 <= heap_limit c /\ validate h b = true /\ body_ok c b = true /\
  body_fits c b = true /\ body_eq b b = false.
Proof.
  exists c64, (HArray HFloat64), (BArray [BFloat64 (2047 * 2 ^ 52 + 1)]). split; [repeat split; cbn; lia|]. split; [cbn; lia|].
  split; [reflexivity|]. split; [reflexivity|]. split; reflexivity.
Qed.
(** Symmetric and transitive. *)
Theorem C63_symmetric : forall c a b, body_ok c a = true -> body_ok c b = true -> body_eq a b = body_eq b a.
Proof.
  intros c a b Ha Hb. pose proof (body_eq_iff c a b Ha Hb) as E1. pose proof (body_eq_iff c b a Hb Ha) as E2.
  destruct (body_eq a b), (body_eq b a); try reflexivity; exfalso.
  - assert (false = true); [|discriminate]. apply E2. destruct (proj1 E1 eq_refl) as (? & ? & ?). auto.
  - assert (false = true); [|discriminate]. apply E1. destruct (proj1 E2 eq_refl) as (? & ? & ?). auto.
Qed.
Theorem C63_transitive : forall c a b d, body_ok c a = true -> body_ok c b = true -> body_ok c d = true ->
  body_eq a b = true -> body_eq b d = true -> body_eq a d = true.
Proof.
  intros c a b d Ha Hb Hd. rewrite (body_eq_iff c a b), (body_eq_iff c b d), (body_eq_iff c a d) by assumption.
  intros (? & ? & E1) (? & ? & E2). repeat split; try assumption. congruence.
Qed.
Example C63_ex :
  let a := BMap [([97], BTuple [BFloat32 (2 ^ 31); BInt8 (-1)]); ([98], BOptional (Some (BFloat64 4607182418800017408)))] in
  let b := BMap [([97], BTuple [BFloat32 0; BInt8 (-1)]); ([98], BOptional (Some (BFloat64 4607182418800017408)))] in
  let n := BMap [([97], BTuple [BFloat32 2143289344; BInt8 (-1)]); ([98], BOptional None)] in
  body_ok c64 a = true /\ body_ok c64 b = true /\ body_ok c64 n = true /\ no_nan a = true /\ no_nan n = false /\
  body_eq a b = true /\ body_eq a n = false /\ body_eq n n = false /\ no_neg_zero a = false /\ no_neg_zero b = true /\
  number 23 31 1065353216 = (2 ^ 149)%Z /\ number 23 31 (2 ^ 31 + 1) = (-1)%Z /\ number 52 63 4607182418800017408 = (2 ^ 1074)%Z.
Proof. repeat split; vm_compute; reflexivity. Qed.
Print Assumptions C63_floats.
Print Assumptions C63_equality.
Print Assumptions C63_roundtrip.
Print Assumptions C63_same_bytes.
Print Assumptions C63_equal_alike.
Print Assumptions C63_equal_bytes_refuted.
Print Assumptions C63_reflexive_refuted.
Print Assumptions C63_symmetric.
Print Assumptions C63_transitive.
