(** * Memory asked for while reading: an allocator, and examples. *)
From Coq Require Import String Lia.
From Verif Require Import Base Serde SpecDty SpecRequest Header Body Grow SpecGrow.
Local Open Scope list_scope.
Local Open Scope N_scope.

Definition ex_size (d : dty) : N :=
  match d with
  | DBool | DU8 | DI8 => 1
  | DU16 | DI16 => 2
  | DU32 | DI32 | DF32 | DChar => 4
  | DU64 | DI64 | DF64 => 8
  | DString | DByteBuf | DVec _ | DMap _ => 24
  | d => if occupies d then 32 else 0
  end.
(** Capacities 32, 64, ... until n bytes fit. *)
Fixpoint ex_caps (fuel : nat) (cap n : N) : list N :=
  match fuel with
  | O => []
  | S f => cap :: if cap <? n then ex_caps f (2 * cap) n else []
  end.
(** Every sixth entry begins a node. *)
Definition ex_node (size n : N) : list N := if n mod 6 =? 0 then [11 * (24 + size) + 16] else [].
Definition ex_mem : mem := Mem ex_size (fun n => ex_caps (S (N.size_nat n)) 32 n) ex_node.
Definition ex_entry (size : N) : N := 11 * (24 + size) + 16.
(** As [ex_mem], with a struct whose fields are all skipped but take 40 bytes. *)
Definition ex_mem_skipped : mem :=
  Mem (fun d => match d with DStruct [] [] => 40 | d => ex_size d end) (fun n => ex_caps (S (N.size_nat n)) 32 n) ex_node.

Definition c64m : cfg := Cfg true 64 32 32 65536.
Definition c64k : cfg := Cfg true 64 32 32 4096.

Lemma ex_caps_total fuel cap n : total (ex_caps fuel cap n) + cap <= 2 * N.max cap (2 * n).
Proof.
  revert cap; induction fuel as [|f IH]; intros cap; cbn [ex_caps total]; [lia|].
  destruct (N.ltb_spec cap n) as [L|L]; cbn [total]; [specialize (IH (2 * cap))|]; lia.
Qed.
Lemma ex_mem_sound : sound_mem ex_mem ex_entry.
Proof.
  split; [|split].
  - intros n. cbn [m_text ex_mem]. assert (H := ex_caps_total (S (N.size_nat n)) 32 n). lia.
  - intros size n. induction n as [|n IH]; [apply N.le_0_l|]. cbn [map_total]. rewrite Nat2N.inj_succ, N.mul_succ_l.
    cbn [m_insert ex_mem]. unfold ex_node, ex_entry in *. destruct (N.of_nat n mod 6 =? 0); cbn [total]; lia.
  - intros d H. destruct d; try discriminate H; cbn [m_size ex_mem ex_size]; rewrite H; reflexivity.
Qed.
Lemma ex_caps_holds f cap n : n <= cap * 2 ^ N.of_nat f -> n <= total (ex_caps (S f) cap n).
Proof.
  revert cap; induction f as [|f IH]; intros cap H.
  - cbn [ex_caps total]. change (2 ^ N.of_nat 0) with 1 in H. lia.
  - change (ex_caps (S (S f)) cap n) with (cap :: if cap <? n then ex_caps (S f) (2 * cap) n else []). cbn [total].
    destruct (N.ltb_spec cap n) as [L|L]; [|lia]. rewrite Nat2N.inj_succ, N.pow_succ_r' in H.
    assert (H' : n <= 2 * cap * 2 ^ N.of_nat f) by lia. specialize (IH (2 * cap) H'). lia.
Qed.
Lemma ex_mem_holds : holds_text ex_mem.
Proof.
  intros n. cbn [m_text ex_mem]. apply ex_caps_holds.
  assert (H : n < 2 ^ N.of_nat (N.size_nat n)).
  { destruct n as [|p]; [reflexivity|]. induction p as [p IH|p IH|]; cbn [N.size_nat Pos.size_nat] in *; rewrite ?Nat2N.inj_succ, ?N.pow_succ_r'; lia. }
  lia.
Qed.
