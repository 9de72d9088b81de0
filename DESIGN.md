# Formal model of dlhn in Coq: design

Source modelled: `/repo` (otake84/dlhn, crates `dlhn` 0.1.7 and `dlhn_derive`).
Everything lives in `rocq/theories`, logical name `Verif`.

## Architecture of the model

* **Decoders are programs.** Every decoding function of the crate becomes a value of type `prog A`
  (Base.v): a tree of the *effects* the Rust code performs: `read_exact(n)`, `take(n).read_to_end`,
  `Vec::with_capacity(bytes)`, return a value, return an error, panic. Programs are run
  - by `run`, over one in-memory byte string (a `&[u8]` reader);
  - by `exec` (Io.v), over a *stream of read events* (chunks of any size, `Interrupted`, I/O error)
    that follows std's `read_exact`/`read_to_end` loops.
  C42 relates the two once and for all programs.
* **Encoders are write traces.** Every serializing function becomes a `wprog`: the sequence of `write_all`
  calls and how it ends (Ok, error, panic). `wbytes` is what reaches an ideal writer; `wexec` runs the trace
  against a faulty writer (partial writes, `Interrupted`, `Ok(0)`, errors).
* **serde** is represented by its data model: `sval` is the sequence of `Serializer` calls a `Serialize` impl makes,
  `dty` the sequence of `Deserializer` requests a `Deserialize` impl makes. `ser`/`de` model
  `impl Serializer for &mut Serializer<W>` / `impl Deserializer for &mut Deserializer<R>` method by method.
* **Rust types** for `SerializeHeader` and its derive macro are `rty` (Derive.v): leaves, options, vectors, maps,
  tuples, structs and enums with their attributes as `syn` presents them, and named items for recursion.
* **Panics are outcomes** (`OPanic`): arithmetic overflow (only if `overflow_checks`), `todo!()`, capacity overflow,
  refused allocation, out-of-range slice, stack overflow (depth of recursion), `time` range panics.
* **Platform configuration** `cfg`: overflow checks on/off, `usize` width 32/64, size of `Body` and `Header` in memory, largest
  allocation granted. Theorems quantify over it.
* Integers are `N`/`Z` with explicit wrap-around/truncation (`mod 2^w`) wherever the code shifts, casts or adds.
* Bytes are `N`; inputs are assumed `< 256` where it matters (`bytes_ok`).

## Files

| role | files |
|------|-------|
| model | Base, Varint, VarintBuf, Utf8, Serde, Typing, Big, Time, Header, Body, Eq, Io, Derive, DeriveDe, Rec, Keys, Stack, Flatten, Std, Alias, Grow, GrowRec, GrowStd, GrowHeader, GrowDerive, Conv, Tagged |
| specifications | SpecVarint, SpecUtf8, SpecDecode, SpecRequest, SpecDty, SpecMap, SpecHeader, SpecBody, SpecBig, SpecTime, SpecIo, SpecDerive, SpecDeriveDe, SpecEvolve, SpecSize, SpecRec, SpecEq, SpecAccept, SpecReject, SpecKeys, SpecOutput, SpecReads, SpecPortable, SpecPortableType, SpecFormat, SpecStack, SpecHeap, SpecUpgrade, SpecUpgradeBody, SpecDerived, SpecCut, SpecWritten, SpecStop, SpecFlatten, SpecStd, SpecCalls, SpecAlike, SpecAgain, SpecAlias, SpecGrow, SpecConv, SpecTagged, SpecHash, SpecUndo, SpecPeak, SpecPeakStd, SpecHeld, SpecLabel, SpecGrowHeader, SpecGrowDerive, and `has_ty`/`wf_dty` of Typing |
| proofs | *Facts, SerdeMore, SerdeProps, SerdeSize, SerdeSafe, Consume, WireBytes, DeriveBody, DeriveRec, EvolveWire |
| property theorems | Prop* (theorems, examples, `Print Assumptions` only) |
| examples | ExSerde, ExDeriveDe, ExFlatten, ExUpgrade, ExStd, ExAlias, ExGrow, ExConv, ExTagged, ExHash, ExPeak, ExPeakStd (values used by the examples), Conform (the crate's own unit tests replayed in the model: checks of the transcription, not proofs) |

Specification files import from the model only its data types (`sval`, `dty`, `header`, `body`, `rty`, `cfg`,
write traces and read events) and never its functions, with these exceptions: `Typing.has_ty` says "valid UTF-8" and "keys in
increasing order" with `utf8_valid` and `bytes_cmp`, which C06 and C17 tie to the independent `wellformed` and
`lex_lt`; list length and indexing by `N` (`lenN`, `pickN`) are shared; SpecDerive names the skip-attribute tests of the macro, whose effect C43 states on concrete attributes.

## Plan per property

| id | modelled | proof |
|----|----------|-------|
| C01-C05 | prefix_varint.rs branch by branch with leading_zeros/shift/cast; zigzag.rs; arithmetic spec of the format | shifts to div/mod, one generic little-endian lemma, per-branch lia; finite sweep over the first byte |
| C06-C09 | UTF-8 validation/decoding as in std; deserialize_string/byte_buf/char with both paths and the chunk loop | list induction; loop invariant on (pos, result) |
| C10-C14 | ser/de over all of `dty`/`sval` | induction on `dty`; program-level locality lemma by induction on `prog` |
| C15 | u32-writes/u16-reads of variant index | arithmetic; witness for the refutation |
| C16-C19 | MapKeySerializer, map insertion, seq/map without length, structs | induction; witnesses |
| C20-C24 | header tree, serializer, recursive decoder with explicit stack depth | induction on header / on depth |
| C25-C31 | Body, serialize, deserialize, validate | induction on header |
| C32-C33 | panic outcomes and resource nodes of `prog` | predicate over all nodes of a program |
| C34-C36 | num-bigint byte conversions, bigdecimal normalization (as documented by those crates) | arithmetic induction on byte lists |
| C37-C39 | derived Ord, time::Date / OffsetDateTime validity and arithmetic | lia, witnesses |
| C40-C42 | faulty writers, chunked readers | induction on event lists and programs |
| C43 | derive macro and serde_derive's documented behaviour on item descriptions | induction on items, witnesses |
| C44 | 32-bit cfg | witnesses, and uniformity theorems for 64 bit |
| C45-C48 | strictness, floats, unsupported requests, work bounds | corollaries and witnesses |
| C49-C50 | re-encoding a decoded value | induction on `dty`; on 32 bits by a version of `yields` for runs that consume fewer than 2^32 bytes (WidthFacts) |
| C51 | which error kind each failure reports | predicate over all `Fail` nodes |
| C52-C53 | memory of decoded headers and bodies | consumption lemma: size of result against bytes eaten |
| C54 | torn streams | C11 + C13 over event streams |
| C55 | recursive items | calls flattened to pieces; unrolling |
| C56 | `ser` of a typed value and of its Body as the same write trace | induction on `rty` |
| C57-C59 | reading with another `dty` than the one written | closed form of each varint class; induction on fields |
| C60 | prefix-freeness of `hser` | induction on header |
| C61 | `SpecSize.size_range`, a recursive function of the type | induction on `dty`, with witnesses at both ends |
| C62 | items calling items with a stack budget (Rec) | simulation of the stack-limited program by the type resolved to a depth |
| C63 | derived equality of Body on bit patterns (Eq) | IEEE value of a bit pattern is injective up to zero; induction on bodies |
| C64 | Time | boundaries of the varint classes |
| C65 | stores into the encode buffer (VarintBuf) | arm by arm against Varint |
| C66 | derived Deserialize with skip attributes (DeriveDe) | writer and reader related field by field; induction on `rty` |
| C67 | `SpecAccept`, an inductive description of the codes of each type and header | every decoder combinator recognises a language; induction on `dty` and header |
| C68 | keys that ask is_human_readable, readers for keys of any type (Keys) | Ipv4Addr as the example, dotted notation from the standard library's numerals |
| C69 | `SpecReject`, an inductive description of the failing inputs | `fails` beside `lang`: a program stops at its first rejecting part; induction on `dty` and header |
| C70 | `SpecOutput`, an inductive description of what is written and how writing ends | mutual induction on the description; the description is total; C49 and C67 for the shortest code |
| C71 | `SpecReads`, outcomes as a relation, parametric in the pointer width | `does`: the outcome satisfies the relation and is the only one; leaves without lengths from C67 and C69 on a 64 bit copy of the target; induction on `dty` and header |
| C72 | `SpecPortable`, `SpecPortableType`, conditions on types and headers | derivations of `accepts` (C67) turned into derivations of `reads` (C71) on the other target; derived types: a relation between programs closed under bind and loops |
| C73 | `SpecFormat`, outcomes as relations | C35 and C71; real dates of C38, instants of C39 |
| C74 | `rejects` and `header_rejects` of C69 | induction on their derivations; a cut header completed with unit members |
| C75 | body reading, writing, validation and header writing with a budget of nested calls (Stack) | simulation of the limited by the unlimited program, relations on programs (`tracks`, `gives`, `torn`) |
| C76 | `granted`: allocations of a run that the system granted; bounds computed from the header (SpecHeap) | `costs` on programs: bounds on success and failure composed through bind and loops |
| C77 | lists of compatible changes with the conversion of values (SpecUpgrade), of headers and bodies (SpecUpgradeBody) | induction over the change: converted value typed and of equal bytes, then round trip |
| C78 | relation between input and outcome for derived types, types of equal layout (SpecDerived) | one `does` lemma per construct, induction over types; congruence of the relation |
| C79 | inductive description of proper starts of codes (SpecCut) | induction over codes cut in two; completion by zeros and copies; C67 and C74 |
| C80 | relation between values of derived types, bytes and the end of writing (SpecWritten) | induction on `rty`: the relation is total and holds of the trace only |
| C81 | exact delivery of a value's bytes by a reader, then anything (SpecStop) | induction on the decoder: what it leaves unread was never asked for |
| C82 | named values of a struct with flattened fields, and their bytes (SpecFlatten) | computation of the entries; the first name's length read as a count |
| C83 | the two builds (`overflow_checks`) run side by side | relation between two programs that agree until the first overflows, closed under bind and loops |
| C84 | serde's impls for std types over the modelled Serializer and Deserializer (Std) | each type has a wire type; the two readers are run side by side, a relation says what a wire value stands for |
| C85 | reader calls counted along `run`, write_all calls of a trace (SpecCalls) | a budget of two calls for each byte: a length saves the call which an empty string costs; additive over bind and loops |
| C86 | `requests` (SpecRequest), `delivers`/`same` (SpecIo), `decided_by_bytes` (SpecAlike) | one record of closure conditions (AlikeFacts `kept_by_all`), one induction for each kind of type, four instances: request sizes, steadiness under faults, locality, error names |
| C87 | `regular`, `timed` (SpecAgain), `readable` (SpecDeriveDe), `proper`/`wire` (SpecStd) | derived: induction over the type with `short` (WidthFacts: writable, reads back) and `consumes` (size); library: what stands for a typed wire value comes back as itself, and its wire form is no longer; recursive: through `levels` |
| C88 | `then_refused`, `without_aliases` (SpecAlias) | the loop over a stretch of fields that announce one name each is the sequence of their reads (induction); a field that announces two finds its slot taken |
| C89 | `sound_mem`, `grow_byte`, `grow_byte_body`, `held`, `held_body` (SpecGrow), `total`/`granted` (SpecRequest, SpecHeap) | the growing reader is the plain one with requests added (relation `adds`); amortised accounts (`pays`): doubling is paid with 12 sizes banked per member, entries of maps by their keys, texts and buffers by their bytes; from below, a second induction (`asked`) with the capacity as invariant |
| C90 | `cwire`, `turned`, `returns`, `cproper`, `crefusing`, `cshadowing` (SpecConv), `read_as`, `stands`, `comes_back` (SpecStd) | conversions are parameters of the type, any functions; the two readers side by side as for C84, one more rule for a conversion that may refuse; round trip and cuts by induction on the type |
| C91 | `hold`, `unreadable`, `gwire`, `gproper` (SpecTagged) | one induction for both cases (`meets`): a written part is read back or reading it panics, closed under sequencing on both sides, so that what follows the first unreadable value does not matter; every input: side by side with the wire type |
| C92 | `shuffled`, `strict` (SpecHash), `comes_back`, `proper`, `wire` (SpecStd) | induction on the type along the two relations at once; a permutation of what is written is a permutation of what is read, and sets (members equal only if the same) and maps forget it |
| C93 | as C86 and C85; `undone`, `ctimed` (SpecUndo), `turned`, `cwire`, `cproper` (SpecConv) | the same record of closure conditions, one induction for each of the three kinds of type (AlikeMoreFacts), with a fifth instance for the reader calls; again: what a typed wire value is turned into returns as itself when the conversions are undone |
| C94 | `peak`, `xpeak`, `boxes`, `leads`, `sound_layout` (SpecPeak), `total`/`allocs` (SpecRequest) | the same accounts as C89, but a reader of a type that takes input leaves the allowance of one byte unspent (relation `pays` with post [spare]): an element pays for its own slot, the byte of a tag for the boxes behind it; induction on the type, then on the depth |
| C95 | `relabelled` (SpecLabel), `describes`, `carries` (SpecDerive) | induction on the type; a style writes what its fields write; the four attributes are witnesses built from Flatten, Tagged and Conv. Attributes of the item itself (tag, untagged, into) are not part of `rty`: the macro does not look at them |
| C96 | `speak`, `owed`, `set_total`, `sound_slayout` (SpecPeakStd), `wire`, `proper` (SpecStd) | as C94; a set pays for a member when it is new, a CString banks two bytes of every byte of text; what std's BTreeSet and CString::new ask for is a parameter (`slayout`) bounded by `sound_slayout` |
| C97 | `std_held`, `x_held`, `item_held` (SpecHeld) | relation `asked` (HeldFacts): on success the result holds no more than the sum of requests; induction on the type, then on the depth. A CString is counted without its terminator: whether CString::new asks for it depends on spare capacity |
| C98 | exact count (`hsize`) on success, `65535 / 4` headers per byte in any case, family that reaches it | relation `asked` with equality; for the factor, induction on the depth with a count of 16384 or more costing three bytes and its code a fourth |
| C99 | `per_pair`, `rows` (SpecGrowHeader); budgets of SpecGrow and SpecHeap | C98 and C89, with the budgets of a header bounded by its size, induction on the header; the family by running it |
| C100 | `sound_layout`, `roccupies`, `dense`, `rgrow`, `rheld` (SpecGrowDerive), `allocs`, `total` (SpecRequest, SpecHeap) | as for C89, with the fields that are skipped left out; a count with no input behind it refutes the rest |

No property was found inexpressible. Performance and wall-clock behaviour are outside the model (see
"Not modelled").

## Trusted base

* The Coq 8.16.1 kernel (including its `vm_compute`), and `coqchk` as a second check.
* `Print Assumptions`: see the end of this file; every theorem is closed under the global context. No axiom is declared in
  `rocq/theories`. Loading `lia` and `ssreflect`-based parts of the standard library brings in module
  `Coq.ssr.ssrunder`, whose abstract `Under_rel` items a context scan counts as seven axioms; they are standard library and no
  theorem depends on them.
* Fidelity of the transcription of the Rust code (each definition cites file and lines) and of the dependencies below, whose
  sources are not available in the sandbox and whose documented behaviour was transcribed.

### What is modelled, file by file

| source | model | left out |
|--------|-------|----------|
| dlhn/src/prefix_varint.rs, dlhn_derive/src/prefix_varint.rs (same text) | Varint, VarintBuf | nothing |
| dlhn/src/zigzag.rs | Varint | nothing |
| dlhn/src/ser.rs | Serde (`ser`, `ser_key`), Keys (`is_human_readable`) | text of `Error::Message`, `Display` |
| dlhn/src/de.rs | Serde (`de`), Rec (user types that refer to each other), DeriveDe (skip attributes), Grow (memory asked for by containers that grow), GrowRec (the same for user types that refer to each other, and their boxes), GrowStd (the same for types of the standard library; `TVec` is a Vec there, not a LinkedList, VecDeque or boxed slice), GrowDerive (the same for derived types with skip attributes) | text of `Error::Message`, `Display` |
| dlhn/src/header/mod.rs, ser.rs, de.rs | Header, Derive, Stack (depth of `hser`), GrowHeader (boxes) | nothing |
| dlhn/src/body/mod.rs | Body, Eq (`PartialEq`), Stack (depth of calls), Grow (boxes, vectors that outgrow what was reserved, maps, texts) | `Clone`/`Debug` derives |
| dlhn/src/big_uint.rs, big_int.rs, big_decimal.rs, date.rs, date_time.rs | Serde (wire), Big, Time (conversions, ordering) | `Hash`, `Debug`, `Clone` |
| dlhn/src/format/*.rs | Big, Time, GrowDerive (memory; what num-bigint asks for is left open as `r_num`) | nothing |
| dlhn_derive/src/lib.rs | Derive | spans, generics, lifetimes |
| dlhn/src/leb128.rs | - | commented out of the crate |
| benches, dlhn_bench | - | not library code |

### Assumptions about dependencies

* **std I/O**: `read_exact` retries on `Interrupted`, fails on a zero-length read; `read_to_end` under `take` retries on
  `Interrupted`, stops at a zero-length read; `write_all` retries on `Interrupted` and fails on `Ok(0)`. A reader that reported end of input
  keeps reporting it. The kind of `io::Error` is not distinguished (the crate maps all to one error). The reader position after a failed
  `read_exact` is unspecified by std and never used by a theorem.
* **std memory**: `Vec::with_capacity(n)` panics if `n * size` exceeds `isize::MAX`, aborts if the allocator refuses (`heap_limit`); each
  request is judged alone, what was granted before does not count against the limit (C76 bounds the sum).
* **serde**: the visitors of primitive types, `Option`, tuples, `Vec` (the crate gives no size hint, so nothing is allocated up front), `BTreeMap<String, _>`/`HashMap`, derived structs
  and enums behave as in serde 1.0. Map keys are strings (`DMap`); `HashMap` is represented by its entries in some order when written and by the
  key-sorted association when read.
* **serde_derive**: skip, skip_serializing, skip_deserializing and skip_serializing_if are modelled (variant numbers count all variants when
  writing and only the variants not skipped when reading), and flatten on its own (Flatten: not of units and enums, not together with skip attributes), and alias on its own (Alias: releases differ in whether FIELDS lists the aliases, which is from memory of its source; both kinds are modelled), and from, try_from, into, transparent, with, serialize_with and deserialize_with on their own (Conv: functions that convert and then use the other type's impl; not functions that panic, or call the Serializer or Deserializer themselves, and not in sets), and untagged and internally tagged enums (Tagged: reading starts with `deserialize_any`, `todo!()`; not newtype variants of internally tagged enums that hold a unit or an enum); adjacently tagged enums (releases write the tag differently), other
  and generics are not. Types whose impls ask `is_human_readable` are represented, as map keys, by Ipv4Addr (Keys). A newtype struct whose only field carries a skip attribute is excluded (`rser` is `None`). An impl that returns an error of its own is `SError`; the impl of a skipped variant is one.
* **serde's impls for std** (Std): `NonZero*`, `Option`, `Vec` and other sequences, `BTreeSet` (any total preorder as Ord; an equal member already there stays), arrays, tuples, `Range`, `RangeInclusive`, `Bound`, `Result`, `Duration`, `SystemTime` (Unix, seconds in an i64, `checked_add`), `CString`, `OsString` (Unix), `PathBuf`, `IpAddr`, `SocketAddr` and their parts, as in serde 1.0's impls.rs. `BTreeMap<String, _>` of such values, derived structs (named fields) and enums with such fields. `HashSet` and `HashMap<String, _>` as these, written in any order (C92); the order their hasher gives is left open. Not modelled: cells, locks and reference counts (transparent).
* **num-bigint**: `to_bytes_le` of zero is `[0]`, signed bytes are minimal two's complement, `from_bytes_le` accepts any bytes.
* **bigdecimal 0.3**: `normalized()` strips trailing zeros with i64 scale arithmetic; the cost (and intermediate overflow) of comparing values with
  enormous scales against zero is not modelled.
* **time 0.3**: years -9999..9999 (no `large-dates`), offset arithmetic panics when the instant leaves the range. `odt_ok` restricts
  `OffsetDateTime` to instants whose UTC form is in range.

## Not modelled

leb128.rs (entirely commented out in the source), benches, `Display`/`Debug` texts and the payload of `Error::Message`, reader position after a failed decode (std leaves it
unspecified), generics/lifetimes, `Hash`, memory that is freed (Grow counts every request, so it bounds what is held at any time; the growth
rule of `Vec` in it is from memory of std, and what read_to_string and BTreeMap ask for is left open as `mem`, sizes of user types and their boxes as `layout` and `rlayout`), memory
asked for by `Default::default()` of skipped fields, stack consumption other than nested calls of headers, bodies (reading, writing, validation), `serialize_header` and derived
`Deserialize` impls (one unit per call).

## Testing the theorems

`seeded/LOG.jsonl` records edits made to a scratch copy of the model (wrong boundaries, missed cases, swapped arguments, dropped updates), the claim
each breaks, and the theorems that stopped proving. `tools/mutate.py` replays them.

## Print Assumptions

For each of the following theorems `Print Assumptions` answers *Closed under the global context*
(no axiom, of the standard library or otherwise). Refreshed by `tools/assumptions.py`.

* PropAccept.v: `C67_body`, `C67_body_unambiguous`, `C67_value`, `C67_value_unambiguous`
* PropAgain.v: `C87_datetime_growth_refuted`, `C87_decimal_growth_refuted`, `C87_decimal_refuted`, `C87_derived`, `C87_duration_growth_refuted`, `C87_library`, `C87_recursive`
* PropAlias.v: `C88_all_names`, `C88_names_only`, `C88_never_read`, `C88_without`, `C88_written_refused`
* PropAlike.v: `C86_bytes_derived`, `C86_bytes_recursive`, `C86_bytes_std`, `C86_errors`, `C86_errors_derived`, `C86_fault_is_end`, `C86_panics_std`, `C86_requests_derived`, `C86_requests_recursive`, `C86_requests_std`, `C86_torn`
* PropAlikeMore.v: `C93_again`, `C93_bytes`, `C93_calls`, `C93_drift_refuted`, `C93_errors`, `C93_fault_is_end`, `C93_panics`, `C93_requests`, `C93_torn`, `C93_unwritable_refuted`
* PropArch.v: `C44_body_counts`, `C44_bytes_32`, `C44_counts_32`, `C44_declared_length_64`, `C44_sizes`, `C44_string_32`, `C44_truncation_detected_32_refuted`
* PropBig.v: `C34_equality`, `C34_int_bytes`, `C34_int_roundtrip`, `C34_into`, `C34_uint_bytes`, `C34_uint_roundtrip`, `C35_decimal_reads`, `C35_decimal_same_reads_refuted`, `C35_same_reads`, `C35_same_writes`, `C36_every_scale_refuted`, `C36_format_roundtrip`, `C36_one_encoding`, `C36_same_bytes`, `C36_wrapper_roundtrip`
* PropBody.v: `C25_body_roundtrip`, `C25_every_body_refuted`, `C26_decoded_iff_valid`, `C26_decoded_validates`, `C27_local`, `C27_truncated`, `C28_wire_format`, `C30_messages`, `C31_reencode`, `C32_body_array_crash`, `C32_body_crash`, `C32_body_no_crash_refuted`, `C33_body_bounded_refuted`, `C33_body_requests`, `C53_body_size`, `C53_unrestricted_refuted`
* PropBuf.v: `C02_u8_wire_format`, `C03_u8_decode_total`, `C05_u8_reencode_not_longer`, `C65_buffer`, `C65_smaller_buffer_refuted`, `C65_vec`
* PropBuild.v: `C83_body_read`, `C83_body_written`, `C83_derived_read`, `C83_derived_written`, `C83_header_read`, `C83_read`
* PropCalls.v: `C85_body`, `C85_by_chunks`, `C85_byte_by_byte`, `C85_derived`, `C85_header`, `C85_recursive`, `C85_std`, `C85_value`, `C85_write`, `C85_write_header`
* PropConv.v: `C90_infallible`, `C90_inverse_refuted`, `C90_one_value`, `C90_read`, `C90_round_trip`, `C90_truncated`, `C90_unwritable`, `C90_wire`
* PropCut.v: `C79_body`, `C79_value`
* PropDerive.v: `C24_compiles`, `C24_one_header`, `C24_typed_header`, `C29_message`, `C29_truncated`, `C29_typed_read_by_header`, `C43_enum`, `C43_skip_if_in_variant_refuted`, `C43_skip_if_rejected`, `C43_skipped_field_in_variant_refuted`, `C43_skipped_variant_refuted`, `C43_struct`, `C43_variant_after_skipped`
* PropDeriveDe.v: `C66_borrowed`, `C66_panics`, `C66_roundtrip`, `C66_skip_deserializing_refuted`, `C66_skip_serializing_if_refuted`, `C66_skip_serializing_refuted`, `C66_skipped_variant`, `C66_truncated`, `C66_variant_moves`, `C66_variant_number`
* PropDerived.v: `C78_layout`, `C78_outcome`
* PropEq.v: `C63_equal_alike`, `C63_equal_bytes_refuted`, `C63_equality`, `C63_floats`, `C63_reflexive_refuted`, `C63_roundtrip`, `C63_same_bytes`, `C63_symmetric`, `C63_transitive`
* PropEvolve.v: `C57_misread`, `C57_same_bytes`, `C57_signed`, `C57_widen_or_narrow`, `C58_bytes_read`, `C58_bytes_written`, `C58_map_written`, `C58_option_read`, `C58_option_read_back_refuted`, `C58_option_written`, `C58_string_read`, `C59_extra_fields`, `C59_missing_fields`, `C59_more_variants`, `C59_nested_refuted`, `C59_unknown_variant`, `C60_every_header_refuted`, `C60_header_prefix_free`
* PropFinal.v: `C74_body`, `C74_header`, `C74_narrow_refuted`, `C74_read_tells_refuted`, `C74_value`
* PropFlatten.v: `C82_not_read_back`, `C82_read`, `C82_refused`, `C82_written`
* PropFormat.v: `C73_date`, `C73_decimal`, `C73_integers`, `C73_time`
* PropGrow.v: `C89_body`, `C89_enough`, `C89_free_members_refuted`, `C89_held`, `C89_held_body`, `C89_linear`, `C89_same`, `C89_same_body`, `C89_value`
* PropGrowDerive.v: `C100_enough`, `C100_held`, `C100_linear`, `C100_same`, `C100_skipped_refuted`, `C100_value`
* PropGrowHeader.v: `C98_any`, `C98_enough`, `C98_exact`, `C98_reached`, `C98_same`, `C99_product`, `C99_reached`
* PropHash.v: `C92_bytes_refuted`, `C92_equal_members_refuted`, `C92_order`, `C92_truncated`
* PropHeader.v: `C20_every_header_refuted`, `C20_header_roundtrip`, `C20_member_count_truncated`, `C20_oversized_never_read`, `C21_wire_format`, `C22_accepts_grammar`, `C22_failures`, `C22_local`, `C22_unassigned_code`, `C23_bounded`, `C23_bounded_stack_refuted`, `C23_recursion`, `C52_header_memory`
* PropHeap.v: `C76_body`, `C76_typed`, `C76_typed_64`, `C76_typed_reached`, `C76_unfinished_reached`, `C76_unrestricted_refuted`
* PropHeld.v: `C97_items`, `C97_items_value`, `C97_std`, `C97_std_value`
* PropIo.v: `C40_ok_means_written`, `C40_slow_writer`, `C40_writer_faults`, `C41_torn_body`, `C41_torn_header`, `C41_torn_value`, `C42_chunking`, `C42_fault_is_end`, `C42_fault_is_end_32_refuted`, `C42_fault_reported`, `C54_torn_stream`
* PropKeys.v: `C68_address_key_read`, `C68_address_key_text`, `C68_address_key_wrong`, `C68_address_map_read`, `C68_address_map_roundtrip_refuted`, `C68_address_value`, `C68_other_keys_read`
* PropLabel.v: `C95_bytes`, `C95_exchange`, `C95_flatten_refuted`, `C95_header`, `C95_into_refuted`, `C95_items`, `C95_tag_refuted`, `C95_untagged_refuted`
* PropOutput.v: `C70_body`, `C70_shortest`, `C70_typed`, `C70_value`
* PropPeak.v: `C94_enough`, `C94_nested`, `C94_recursive`, `C94_same`, `C94_spare`, `C94_typed`, `C94_typed_enough`
* PropPeakStd.v: `C96_asked`, `C96_enough`, `C96_same`, `C96_set`, `C96_spare`
* PropPortable.v: `C72_body`, `C72_converse_refuted`, `C72_usize_refuted`, `C72_value`
* PropPortableType.v: `C72_derived`, `C72_units_refuted`, `C72_written`
* PropReads.v: `C71_body`, `C71_value`
* PropRec.v: `C55_otherwise_written`, `C55_recursion_overflows`, `C56_same_writes`, `C56_typed_reads_dynamic`
* PropRecDe.v: `C62_any_input`, `C62_decoded_fits`, `C62_no_limit_refuted`, `C62_not_recursive`, `C62_overflow`, `C62_roundtrip`, `C62_truncated`
* PropReject.v: `C67_derived_struct`, `C69_body`, `C69_derived_struct`, `C69_header`, `C69_value`, `C69_value_dichotomy`
* PropSafe.v: `C32_serde_crash`, `C33_serde_requests`, `C51_error_kinds`
* PropSerde.v: `C10_roundtrip`, `C11_truncation`, `C12_prefix_free`, `C13_stream`, `C13_stream_end`, `C14_local`, `C15_any_index_refuted`, `C15_large_index`, `C15_small_index`, `C16_bad_key`, `C16_string_keys_only`, `C17_last_wins`, `C17_map_decode`, `C17_order_irrelevant`, `C18_map_lost`, `C18_seq_lost`, `C18_unknown_length_seq`, `C19_names_irrelevant`, `C19_newtype_decode`, `C19_struct_bytes`, `C19_struct_decode`, `C19_wrappers_add_nothing`, `C45_bool_byte`, `C45_option_byte`, `C46_f32`, `C46_f64`, `C47_i128`, `C47_serialize_ok`, `C47_todo`, `C48_any_element_refuted`, `C48_elements_bounded`, `C48_entries_bounded`, `C49_reencode_never_longer`, `C50_decode_encode_decode`
* PropSize.v: `C61_bounds`, `C61_no_value`, `C61_short_input`, `C61_tight`
* PropStack.v: `C75_header_then_body`, `C75_header_write`, `C75_read_any`, `C75_read_enough`, `C75_read_exact`, `C75_valid_levels`, `C75_validate`, `C75_write_enough`, `C75_write_overflow`
* PropStd.v: `C84_lossless_refuted`, `C84_one_encoding_refuted`, `C84_one_value`, `C84_read`, `C84_round_trip`, `C84_shadowed_refuted`, `C84_truncated`, `C84_unwritable`, `C84_written`
* PropStop.v: `C81_body`, `C81_header`, `C81_stops`, `C81_value`
* PropTagged.v: `C91_not_reached`, `C91_reached`, `C91_read`, `C91_tag_map`, `C91_tag_newtype`, `C91_tag_refused`, `C91_tag_struct`, `C91_tag_unit`, `C91_untagged`, `C91_untagged_distinct_refuted`
* PropText.v: `C06_char_utf8`, `C06_decoded_wellformed`, `C06_utf8_exact`, `C07_string_decode`, `C08_buffer_decode`, `C09_char_decode`, `C09_char_roundtrip`, `C09_one_char_only_refuted`
* PropTime.v: `C37_bytes_order`, `C37_date_order`, `C37_decoded_order_refuted`, `C37_numeric_order_refuted`, `C37_time_order`, `C38_conversion`, `C38_decode`, `C38_reads_real_dates`, `C38_roundtrip`, `C39_conversion`, `C39_no_panic_refuted`, `C39_roundtrip`
* PropTimeSize.v: `C64_bounds`, `C64_date_size`, `C64_time_size`
* PropUpgrade.v: `C77_body`, `C77_typed`
* PropVarint.v: `C01_u16_roundtrip`, `C01_u32_roundtrip`, `C01_u64_roundtrip`, `C01_u8_roundtrip`, `C01_u8_varint_roundtrip`, `C02_size`, `C02_wire_format`, `C03_decode_total`, `C03_in_range`, `C04_signed_roundtrip`, `C04_signed_wire`, `C04_zigzag`, `C05_reencode_not_longer`, `C05_unique_encoding_refuted`
* PropWritten.v: `C80_written`
