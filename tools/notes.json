{
 "C05": {
  "note": "Second half of the claim (uniqueness) is refuted by a witness."
 },
 "C09": {
  "note": "The claim that only one-character strings are accepted is refuted by a witness."
 },
 "C15": {
  "note": "True up to index 16383, refuted beyond: C15_large_index shows no larger index ever reads back."
 },
 "C18": {
  "note": "Known lengths are C10 at DVec/DMap; unknown lengths are shown never to read back."
 },
 "C32": {
  "note": "Crash-freedom is proved for serde and for bodies without arrays; arrays are refuted by nine bytes that crash the decoder for every element header."
 },
 "C33": {
  "note": "Holds for serde and for headers without arrays; refuted for Body arrays."
 },
 "C48": {
  "note": "Bound proved for elements that occupy a byte; the unrestricted bound is refuted for unit elements."
 },
 "C20": {
  "note": "Holds for member lists of at most 65535 entries; refuted beyond (the count is truncated silently)."
 },
 "C23": {
  "note": "Size and depth bounds hold; a fixed stack is refuted for every stack size."
 },
 "C25": {
  "note": "Needs dates that can be written under overflow checks; the unrestricted claim is refuted."
 },
 "C53": {
  "note": "Bound proved except for arrays whose elements occupy no bytes, where it is refuted."
 },
 "C35": {
  "note": "Decimal readers agree exactly on inputs characterised by C35_decimal_reads; unrestricted agreement is refuted."
 },
 "C36": {
  "note": "Needs the normalised scale to stay inside i64; refuted otherwise for builds without overflow checks (with checks the conversion panics)."
 },
 "C37": {
  "note": "The claim itself states that the number wrappers are not ordered numerically; shown by witnesses."
 },
 "C39": {
  "note": "The panic is exhibited by bytes and characterised exactly in C39_conversion."
 },
 "C42": {
  "note": "Chunking independence holds for every decoder and build; equivalence of a fault with the end of input is for 64-bit targets and refuted for 32-bit ones."
 },
 "C44": {
  "note": "The claim is that 32-bit targets misbehave; shown for every over-declared length."
 },
 "C29": {
  "note": "For types whose header matches what is serialized (aligned); types without skip attributes always do."
 },
 "C43": {
  "note": "Proved for structs and for enums whose skipped variants trail; each other case is refuted by a witness, and C43_variant_after_skipped shows it in general."
 },
 "C56": {
  "note": "HashMap values are covered when they iterate in key order; otherwise the bytes differ by a permutation of entries and C29 applies."
 },
 "C59": {
  "note": "C59_nested_refuted: extension is only safe at the end of the input."
 },
 "C61": {
  "note": "C61_short_input on 32-bit targets: if the type has no byte buffer, or fewer than 2^32 bytes were consumed."
 },
 "C66": {
  "note": "Agreement of the attributes is necessary: three refutations and C66_variant_moves show what happens without it."
 },
 "C26": {
  "note": "That a decoded body validates holds on every target; that it also fits the memory model is stated for 64-bit targets."
 },
 "C31": {
  "note": "The size bound holds on every target; reading the re-encoding back is stated for 64-bit targets, since on 32-bit ones an array may declare 2^32 or more elements that take no bytes."
 },
 "C89": {
  "note": "How much memory read_to_string and BTreeMap ask for, and the sizes of types, are parameters (mem) under the stated averages (sound_mem); the doubling of Vec is modelled. C89_free_members_refuted shows that the condition on sizes is needed."
 }
}