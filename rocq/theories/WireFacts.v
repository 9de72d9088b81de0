(** * Integers on the wire: lemmas behind C03 and C05. *)
From Verif Require Import Base BaseFacts Varint Serde SpecVarint VarintFacts SpecDecode.

Lemma varint_decode_run m wrap c (p : prog N) s :
  run c p s = varint_run m ERead s -> run c (pmap wrap p) s = varint_decode m wrap s.
Proof.
  intros H; rewrite run_pmap, H. destruct s as [|q t]; [reflexivity|]. cbn [varint_run varint_decode].
  rewrite takeN_firstn, dropN_skipn, Nat2N.id. unfold lenN.
  destruct (Nat.ltb_spec (length t) (varint_extra m q));
    destruct (N.ltb_spec (N.of_nat (length t)) (N.of_nat (varint_extra m q))); try lia; reflexivity.
Qed.
Lemma reencode_len m c (p : prog N) (enc : N -> list N) (wrap : N -> sval) s v r :
  (m = 2 \/ m = 4 \/ m = 8)%nat -> bytes_ok s -> (forall a b, wrap a = wrap b -> a = b) ->
  run c p s = varint_run m ERead s ->
  (forall v, v < 2 ^ (8 * N.of_nat m) -> enc v = varint_bytes m v) ->
  run c (pmap wrap p) s = OOk (wrap v) r -> (length (enc v) + length r <= length s)%nat.
Proof.
  intros Hm Hs Hinj Hrun Henc H. apply run_pmap_ok in H as (a & H & E). apply Hinj in E; subst a.
  rewrite Hrun in H. pose proof (varint_run_bound m _ _ _ _ Hm Hs H) as Hb.
  apply varint_run_inv in H as (q & u & -> & Hq & Hu & Hl & ->); [|exact Hs].
  rewrite Henc by exact Hb. pose proof (varint_reencode m q u Hm Hq Hu Hl). cbn [length] in *.
  rewrite app_length. lia.
Qed.
