(** * Proofs about the size of dates and times. *)
From Verif Require Import Base BaseFacts SpecVarint VarintFacts SpecTime.
Local Open Scope N_scope.

Lemma length_is m v j : varint_m m -> v < 2 ^ (8 * N.of_nat m) -> (j < m)%nat ->
  v < 2 ^ (7 * (N.of_nat j + 1)) -> (j = O \/ 2 ^ (7 * N.of_nat j) <= v) -> length (varint_bytes m v) = (j + 1)%nat.
Proof.
  intros Hm Hv Hj Hu Hl. pose proof (varint_bytes_length_iff m v j Hm Hv Hj) as A. apply proj2 in A. specialize (A Hu).
  destruct j as [|j].
  - assert (length (varint_bytes m v) <> 0)%nat; [|lia]. unfold varint_bytes, class_bytes. destruct (v <? _); discriminate.
  - destruct Hl as [Hl|Hl]; [discriminate|]. pose proof (varint_bytes_length_iff m v j Hm Hv) as B.
    replace (7 * (N.of_nat j + 1)) with (7 * N.of_nat (S j)) in B by lia.
    assert (~ (length (varint_bytes m v) <= j + 1)%nat) by (intros C; apply B in C; lia). lia.
Qed.
Lemma zigzag_bounds z : Z.of_N (zigzag z) = (if z <? 0 then -2 * z - 1 else 2 * z)%Z.
Proof. unfold zigzag. destruct (Z.ltb_spec z 0); lia. Qed.

Ltac size_tac m j := rewrite (length_is m _ j);
  [reflexivity|unfold varint_m; lia|cbn; lia|lia|cbn; lia|try (left; reflexivity); try (right; cbn; lia)].

Lemma year_length y : (-9999 <= y <= 9999)%Z -> length (varint_bytes 4 (zigzag (y - 2000))) = year_size y.
Proof.
  intros H. pose proof (zigzag_bounds (y - 2000)) as Z. generalize dependent (zigzag (y - 2000)). intros n Z.
  unfold year_size. destruct (Z.ltb_spec (y - 2000) 0);
  destruct ((1936 <=? y) && (y <=? 2063))%Z eqn:E1; [size_tac 4%nat 0%nat| |size_tac 4%nat 0%nat|];
  (destruct ((-6192 <=? y) && (y <=? 10191))%Z eqn:E2; [size_tac 4%nat 1%nat|size_tac 4%nat 2%nat]).
Qed.
Lemma ordinal_length o : 1 <= o -> o <= 366 -> length (varint_bytes 2 (o - 1)) = ordinal_size o.
Proof.
  intros H1 H2. unfold ordinal_size. destruct (N.leb_spec o 128); [size_tac 2%nat 0%nat|size_tac 2%nat 1%nat].
Qed.
Lemma seconds_length t : (-377705116800 <= t <= 253402300799)%Z -> length (varint_bytes 8 (zigzag t)) = seconds_size t.
Proof.
  intros H. pose proof (zigzag_bounds t) as Z. generalize dependent (zigzag t). intros n Z. unfold seconds_size.
  destruct ((-64 <=? t) && (t <? 64))%Z eqn:E1; [|
  destruct ((-8192 <=? t) && (t <? 8192))%Z eqn:E2; [|
  destruct ((-1048576 <=? t) && (t <? 1048576))%Z eqn:E3; [|
  destruct ((-134217728 <=? t) && (t <? 134217728))%Z eqn:E4; [|
  destruct ((-17179869184 <=? t) && (t <? 17179869184))%Z eqn:E5]]]];
  destruct (Z.ltb_spec t 0).
  all: [> size_tac 8%nat 0%nat | size_tac 8%nat 0%nat | size_tac 8%nat 1%nat | size_tac 8%nat 1%nat | size_tac 8%nat 2%nat
        | size_tac 8%nat 2%nat | size_tac 8%nat 3%nat | size_tac 8%nat 3%nat | size_tac 8%nat 4%nat | size_tac 8%nat 4%nat
        | size_tac 8%nat 5%nat | size_tac 8%nat 5%nat].
Qed.
Lemma nanos_length n : n < 1000000000 -> length (varint_bytes 4 n) = nanos_size n.
Proof.
  intros H. unfold nanos_size. destruct (N.ltb_spec n 128); [size_tac 4%nat 0%nat|].
  destruct (N.ltb_spec n 16384); [size_tac 4%nat 1%nat|]. destruct (N.ltb_spec n 2097152); [size_tac 4%nat 2%nat|].
  destruct (N.ltb_spec n 268435456); [size_tac 4%nat 3%nat|].
  assert (Hl : ~ (length (varint_bytes 4 n) <= 3 + 1)%nat).
  { intros C. apply varint_bytes_length_iff in C; [cbn in C; lia|unfold varint_m; lia|cbn; lia|lia]. }
  assert (Hu : (length (varint_bytes 4 n) <= 4 + 1)%nat) by (apply varint_bytes_len; [unfold varint_m; lia|cbn; lia]). lia.
Qed.
