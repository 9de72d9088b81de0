(** * C85: the number of calls made on the reader and the writer. *)
From Coq Require Import String.
From Verif Require Import Base Serde SerdeFacts Header Body BodyFacts Derive DeriveDe Rec Std SpecCalls CallsFacts ExSerde ExDeriveDe.
Local Open Scope list_scope.
Local Open Scope N_scope.

(** ** C85 *)
(** Whatever is read from whatever input, the reader is called at most twice for each byte consumed;
    a read that fails or panics makes at most one call beyond that. Neither the type nor the lengths
    declared in the input matter. *)
Theorem C85_value : forall c d s, two_per_byte (run c (de c d) s) s (reader_calls c (de c d) s).
Proof. intros c d. exact (two_per c _ (calls_de c d)). Qed.
Theorem C85_body : forall c h s, two_per_byte (run c (bde c h) s) s (reader_calls c (bde c h) s).
Proof. intros c h. exact (two_per c _ (calls_bde c h)). Qed.
Theorem C85_header : forall c depth s, two_per_byte (run c (hde c depth) s) s (reader_calls c (hde c depth) s).
Proof. intros c depth. exact (two_per c _ (calls_hde c depth)). Qed.
Theorem C85_derived : forall c dflt t s, two_per_byte (run c (rde c dflt t) s) s (reader_calls c (rde c dflt t) s).
Proof. intros c dflt t. exact (two_per c _ (calls_rde c dflt t)). Qed.
Theorem C85_recursive : forall c items depth i s,
  two_per_byte (run c (item_de c items depth i) s) s (reader_calls c (item_de c items depth i) s).
Proof. intros c items depth i. exact (two_per c _ (calls_item c items depth i)). Qed.
Theorem C85_std : forall c t s, two_per_byte (run c (std_de c t) s) s (reader_calls c (std_de c t) s).
Proof. intros c t. exact (two_per c _ (calls_std c t)). Qed.

(** A Vec<u8>, and the digits of a big integer, are fetched byte by byte... *)
Theorem C85_byte_by_byte : forall c bs rest, wf_cfg c -> lenN bs < 2 ^ usize_bits c ->
  let s := wbytes (ser (vec_u8 bs)) ++ rest in
  lenN bs + 1 <= reader_calls c (de c (DVec DU8)) s <= lenN bs + 2 /\
  lenN bs + 1 <= reader_calls c (de c DBigInt) s <= lenN bs + 2.
Proof.
  intros c bs rest Hw Hb s. subst s. rewrite (proj2 (ser_vec_u8 bs)), <- app_assoc.
  exact (conj (calls_vec_map c bs rest _ Hw Hb) (calls_big_map c bs rest _ Hw Hb)).
Qed.
(** ... a ByteBuf with the same bytes on the wire, 4096 bytes at a time. *)
Theorem C85_by_chunks : forall c bs rest, wf_cfg c -> lenN bs < 2 ^ usize_bits c ->
  reader_calls c (de c DByteBuf) (wbytes (ser (SBytes bs)) ++ rest) <= lenN bs / 4096 + 3.
Proof. intros c bs rest Hw Hb. rewrite (ser_bytes_bytes bs), <- app_assoc. exact (calls_buf_map c bs rest _ Hw Hb). Qed.

(** Writing calls write_all at most twice for each byte written, whether it succeeds or not. *)
Theorem C85_write : forall v, lenN (writer_calls (ser v)) <= 2 * lenN (wbytes (ser v)).
Proof. exact lean_ser. Qed.
Theorem C85_write_header : forall h, lenN (writer_calls (hser h)) <= 2 * lenN (wbytes (hser h)).
Proof. exact lean_hser. Qed.

(** Empty strings take two calls a byte: the length, then nothing. *)
Example C85_ex_tight :
  run c64 (de c64 (DTuple [DString; DString; DString])) [0; 0; 0] = OOk (STuple [SStr []; SStr []; SStr []]) [] /\
  reader_calls c64 (de c64 (DTuple [DString; DString; DString])) [0; 0; 0] = 6 /\
  writer_calls (ser (STuple [SStr []; SStr []; SStr []])) = [[0]; []; [0]; []; [0]; []].
Proof. vm_compute. auto. Qed.
(** Two thousand million strings are declared, two empty ones follow: seven calls, the last of which
    fails. *)
Example C85_ex_declared :
  run c64 (de c64 (DVec DString)) [240; 255; 255; 255; 15; 0; 0] = OErr ERead /\
  reader_calls c64 (de c64 (DVec DString)) [240; 255; 255; 255; 15; 0; 0] = 7.
Proof. vm_compute. auto. Qed.
(** The last call may find nothing. *)
Example C85_ex_end : reader_calls c64 (de c64 DU8) [] = 1 /\ run c64 (de c64 DU8) [] = OErr ERead.
Proof. vm_compute. auto. Qed.
Example C85_ex_bytes :
  let bs := repeat 7 200 in
  wf_cfg c64 /\ lenN bs < 2 ^ usize_bits c64 /\
  reader_calls c64 (de c64 (DVec DU8)) (wbytes (ser (vec_u8 bs))) = 202 /\
  reader_calls c64 (de c64 DByteBuf) (wbytes (ser (SBytes bs))) = 3 /\
  wbytes (ser (vec_u8 bs)) = wbytes (ser (SBytes bs)).
Proof. cbv zeta. split; [split; [right; reflexivity|split; discriminate]|]. vm_compute. auto. Qed.
(** A header of four nodes; a socket address; a derived struct with a skipped field. *)
Example C85_ex_header :
  run c64 (hde c64 9) [21; 2; 3; 20; 18; 99] = OOk (HTuple [HUInt8; HArray HString]) [99] /\
  reader_calls c64 (hde c64 9) [21; 2; 3; 20; 18; 99] = 5.
Proof. vm_compute. auto. Qed.
Example C85_ex_std :
  run c64 (std_de c64 TSockAddr) [0; 127; 0; 0; 1; 80] = OOk (XV4 (XSock4 [127; 0; 0; 1] 80)) [] /\
  reader_calls c64 (std_de c64 TSockAddr) [0; 127; 0; 0; 1; 80] = 6.
Proof. vm_compute. auto. Qed.
Example C85_ex_derived :
  let t := RStruct Named [([], ("a"%string, RLeaf LBool)); (ex_attr "skip", ("x"%string, RLeaf LU64)); ([], ("c"%string, RLeaf LString))] in
  run c64 (rde c64 (fun _ => VU 0) t) [1; 2; 97; 98; 5] = OOk (VSeq [VBool true; VU 0; VB [97; 98]]) [5] /\
  reader_calls c64 (rde c64 (fun _ => VU 0) t) [1; 2; 97; 98; 5] = 3.
Proof. vm_compute. auto. Qed.

Print Assumptions C85_value.
Print Assumptions C85_body.
Print Assumptions C85_header.
Print Assumptions C85_derived.
Print Assumptions C85_recursive.
Print Assumptions C85_std.
Print Assumptions C85_byte_by_byte.
Print Assumptions C85_by_chunks.
Print Assumptions C85_write.
Print Assumptions C85_write_header.
