(** * C71: what reading does to every input, on 32 bit targets as on 64 bit ones. *)
From Coq Require Import String.
From Verif Require Import Base BaseFacts Serde Typing Header Body SpecVarint SpecUtf8 SpecAccept AcceptFacts SpecReject RejectFacts SpecReads ReadsFacts ExSerde.
Local Open Scope list_scope.
Local Open Scope N_scope.

(** ** C71 *)
(** The outcome of reading a type is the described one: the value and the rest of the input, the error,
    or the crash. *)
Theorem C71_value : forall c d s o, wf_cfg c -> 4096 <= heap_limit c -> shaped d = true -> bytes_ok s ->
  (run c (de c d) s = o <-> reads c d s o).
Proof. intros c d s o Hw Hh Hd Hs. exact (does_iff c (de c d) (reads c d) (does_de c d Hw Hh Hd) s o Hs). Qed.
Theorem C71_body : forall c h s o, wf_cfg c -> 4096 <= heap_limit c -> bytes_ok s ->
  (run c (bde c h) s = o <-> body_reads c h s o).
Proof. intros c h s o Hw Hh Hs. exact (does_iff c (bde c h) (body_reads c h) (does_bde c h Hw Hh) s o Hs). Qed.

(** The length 2^32 + 2 and one byte of input after "ab": with 32 bits the string is 3 bytes long, of
    which the length left in a usize is 2, and no string is read; without the third byte it is read. *)
Example C71_ex_string :
  let l := [255; 2; 0; 0; 0; 1; 0; 0; 0] in
  reads c32 DString (l ++ [97; 98]) (OOk (SStr [97; 98]) []) /\
  run c32 (de c32 DString) (l ++ [97; 98]) = OOk (SStr [97; 98]) [] /\
  run c32 (de c32 DString) (l ++ [97; 98; 99]) = OErr ERead /\
  run c64 (de c64 DString) (l ++ [97; 98]) = OErr ERead.
Proof.
  cbv zeta. split; [|repeat split; vm_compute; reflexivity].
  apply (rd_string c32 _ (OOk [97; 98] [])). apply (tr_text c32 [255; 2; 0; 0; 0; 1; 0; 0; 0] 4294967298 [97; 98] []).
  - exists 255, [2; 0; 0; 0; 1; 0; 0; 0]. vm_compute. auto.
  - right. split; reflexivity.
  - reflexivity.
  - exists [97; 98]. split; [constructor; [|constructor; [|constructor]]; unfold scalar; lia|reflexivity].
Qed.
(** The same length before a vector: two members are read. Before a big integer: two bytes. *)
Example C71_ex_vector :
  let l := [255; 2; 0; 0; 0; 1; 0; 0; 0] in
  reads c32 (DVec DU8) (l ++ [7; 8; 9]) (OOk (SSeq (Some 2) [SU8 7; SU8 8]) [9]) /\
  run c32 (de c32 (DVec DU8)) (l ++ [7; 8; 9]) = OOk (SSeq (Some 2) [SU8 7; SU8 8]) [9] /\
  body_reads c32 HBigUInt (l ++ [7; 8; 9]) (OOk (BBigUInt [7; 8]) [9]) /\
  run c32 (bde c32 HBigUInt) (l ++ [7; 8; 9]) = OOk (BBigUInt [7; 8]) [9] /\
  run c32 (bde c32 HBinary) (l ++ [7; 8; 9]) = OErr ERead /\
  run c32 (bde c32 (HArray HUInt8)) (l ++ [7; 8; 9]) = OErr ERead.
Proof.
  cbv zeta. split; [|split; [|split; [|split; [|split]]]].
  - apply (rd_vec c32 DU8 [255; 2; 0; 0; 0; 1; 0; 0; 0] 4294967298 [7; 8; 9] (OOk [SU8 7; SU8 8] [9])).
    + exists 255, [2; 0; 0; 0; 1; 0; 0; 0]. vm_compute. auto.
    + change (repeat DU8 (N.to_nat (kept c32 4294967298))) with [DU8; DU8].
      apply (ra_cons c32 DU8 [DU8] _ (SU8 7) [8; 9] (OOk [SU8 8] [9])); [exact (rd_plain c32 DU8 [7] _ [8; 9] eq_refl (ac_u8 c32 7))|].
      apply (ra_cons c32 DU8 [] _ (SU8 8) [9] (OOk [] [9])); [exact (rd_plain c32 DU8 [8] _ [9] eq_refl (ac_u8 c32 8))|constructor].
  - vm_compute. reflexivity.
  - apply (bd_biguint c32 _ (OOk [7; 8] [9])). apply (by_bytes _ [255; 2; 0; 0; 0; 1; 0; 0; 0] 4294967298 [7; 8] [9]); [|reflexivity].
    exists 255, [2; 0; 0; 0; 1; 0; 0; 0]. vm_compute. auto.
  - vm_compute. reflexivity.
  - vm_compute. reflexivity.
  - vm_compute. reflexivity.
Qed.
(** A usize that does not fit is refused. *)
Example C71_ex_usize :
  reads c32 DUsize [255; 0; 0; 0; 0; 1; 0; 0; 0; 5] (OErr EMsg) /\
  run c32 (de c32 DUsize) [255; 0; 0; 0; 0; 1; 0; 0; 0; 5] = OErr EMsg /\
  run c64 (de c64 DUsize) [255; 0; 0; 0; 0; 1; 0; 0; 0; 5] = OOk (SU64 4294967296) [5].
Proof.
  split; [|split; vm_compute; reflexivity].
  apply (rd_usize_big c32 [255; 0; 0; 0; 0; 1; 0; 0; 0] 4294967296 [5]); [exists 255, [0; 0; 0; 0; 1; 0; 0; 0]; vm_compute; auto|vm_compute; discriminate].
Qed.

Print Assumptions C71_value.
Print Assumptions C71_body.
