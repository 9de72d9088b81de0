(** * What hostile input can do to the serde decoder: C32, C33, C51. *)
From Verif Require Import Base BaseFacts Serde Typing SpecDty SpecRequest ExSerde SerdeSafe.
Local Open Scope N_scope.

(** ** C32 *)
Theorem C32_serde_crash : forall c d s q,
  wf_cfg c -> 4096 <= heap_limit c -> wf_dty d = true -> bytes_ok s ->
  run c (de c d) s = OPanic q -> q = POverflow /\ overflow_checks c = true /\ occurs is_date d = true.
Proof.
  intros c d s q Hw Hh Hd Hs H. pose proof (ends_de c d Hw Hh Hd s Hs) as E. rewrite H in E. exact E.
Qed.
(** The exception is real: year -2147483648 + 2000 is fine, 2147483647 + 2000 is not. *)
Example C32_ex : wf_cfg c64 /\ wf_dty DDate = true /\ bytes_ok [240; 254; 255; 255; 255; 0] /\
  run c64 (de c64 DDate) [240; 254; 255; 255; 255; 0] = OPanic POverflow /\
  run (Cfg false 64 1 1 4096) (de (Cfg false 64 1 1 4096) DDate) [240; 254; 255; 255; 255; 0] =
    OOk (STuple [SI32 2147483647; SU16 0]) [].
Proof.
  split; [repeat split; cbn; lia|]. split; [reflexivity|]. split; [repeat constructor; lia|].
  split; vm_compute; reflexivity.
Qed.
Print Assumptions C32_serde_crash.

(** ** C33 *)
(** Every type, supported or not, and every input. *)
Theorem C33_serde_requests : forall c d s, Forall (fun n => n <= 4096) (requests c (de c d) s).
Proof. intros c d s; exact (small_requests 4096 c (de c d) s (small_de c d)). Qed.
(** A buffer declared to have 2^63 bytes, and a 5 byte one. *)
Example C33_ex :
  requests c64 (de c64 DByteBuf) [255; 0; 0; 0; 0; 0; 0; 0; 128; 1; 2] = [1; 8; 4096; 4096] /\
  requests c64 (de c64 DByteBuf) [5; 1; 2] = [1; 5; 5].
Proof. split; vm_compute; reflexivity. Qed.
Print Assumptions C33_serde_requests.

(** ** C51 *)
(** Every failure is Err(Read), except that a char may give Err(CharSize) and an enum (or, on 32-bit
    targets, usize/isize) serde's own message. *)
Theorem C51_error_kinds : forall c d s e,
  wf_cfg c -> 4096 <= heap_limit c -> wf_dty d = true -> bytes_ok s ->
  run c (de c d) s = OErr e ->
  e = ERead \/ (e = ECharSize /\ occurs is_char d = true) \/
  (e = EMsg /\ (occurs is_enum d = true \/ (occurs is_size d = true /\ usize_bits c = 32))).
Proof.
  intros c d s e Hw Hh Hd Hs H. pose proof (ends_de c d Hw Hh Hd s Hs) as E. rewrite H in E. exact E.
Qed.
Example C51_ex : run c64 (de c64 ex_enum) [9] = OErr EMsg /\ run c64 (de c64 DChar) [0] = OErr ECharSize /\
  run c32 (de c32 DUsize) [240; 0; 0; 0; 32] = OErr EMsg /\ run c64 (de c64 DUsize) [240; 0; 0; 0; 32] = OOk (SU64 (2 ^ 32)) [].
Proof. repeat split; vm_compute; reflexivity. Qed.
Print Assumptions C51_error_kinds.
