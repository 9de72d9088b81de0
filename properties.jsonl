{"id": "C01", "title": "Unsigned integers round-trip", "statement": "Serializing any u8/u16/u32/u64 and deserializing it as the same type returns the same number and leaves the reader exactly at the first byte after the encoding.", "quantifier": "every value of each width and every byte string that follows it", "why_tests_cant": "2^64 values times all continuations; unit tests try powers of two only", "anchors": ["dlhn/src/prefix_varint.rs: encode_prefix_varint, decode_prefix_varint", "dlhn/src/ser.rs: serialize_u8..u64", "dlhn/src/de.rs: deserialize_u8..u64"]}
{"id": "C02", "title": "Exact wire format and size of unsigned integers", "statement": "The encoding of a u16/u32/u64 is the documented prefix varint: k leading one bits announce k further bytes, low-order bits first, 7 payload bits per byte, with a raw little-endian fallback; it is the shortest class that fits and never exceeds 3/5/9 bytes.", "quantifier": "every value of each width", "why_tests_cant": "byte-exact claim over the whole value range, in particular at the class boundaries of every shift", "anchors": ["dlhn/src/prefix_varint.rs: encode_prefix_varint"]}
{"id": "C03", "title": "Varint decoding is total and its length is fixed by the first byte", "statement": "On any byte string the varint decoder either fails because input ends too early, or returns a number in range of the type after consuming a number of bytes determined by the first byte alone; it never panics.", "quantifier": "every byte string", "why_tests_cant": "input space is unbounded and adversarial", "anchors": ["dlhn/src/prefix_varint.rs: decode_prefix_varint"]}
{"id": "C04", "title": "Signed integers round-trip through zigzag", "statement": "Zigzag maps 0,-1,1,-2,... to 0,1,2,3,... bijectively on each width, and i8/i16/i32/i64 round-trip through the serializer and deserializer with exact consumption.", "quantifier": "every signed value of each width, every unsigned code, every continuation", "why_tests_cant": "full integer ranges incl. MIN/MAX edge arithmetic", "anchors": ["dlhn/src/zigzag.rs: encode_zigzag, decode_zigzag", "dlhn/src/ser.rs: serialize_i8..i64", "dlhn/src/de.rs: deserialize_i8..i64"]}
{"id": "C05", "title": "Re-encoding a decoded varint never grows it; accepted encodings are not unique", "statement": "Whatever byte string a varint decoder accepts, re-encoding the result yields at most as many bytes. The stronger claim that each number has only one accepted encoding is false: overlong forms are accepted.", "quantifier": "every accepted byte string of each width", "why_tests_cant": "needs all non-canonical byte strings, which tests of the encoder never produce", "anchors": ["dlhn/src/prefix_varint.rs: decode_prefix_varint"]}
{"id": "C06", "title": "Strings are accepted exactly when they are well-formed UTF-8", "statement": "A decoded string is Ok only if its bytes are the concatenation of UTF-8 encodings of Unicode scalar values, and every such concatenation is accepted.", "quantifier": "every byte string", "why_tests_cant": "all malformed sequences cannot be enumerated", "anchors": ["dlhn/src/de.rs: deserialize_string"]}
{"id": "C07", "title": "String decoding is uniform in length", "statement": "On 64-bit targets decoding a string succeeds exactly when the declared number of bytes is available and is UTF-8, returns those bytes and stops right after them; the 128-byte fast path and the streaming path are indistinguishable.", "quantifier": "every declared length and every input", "why_tests_cant": "two code paths, lengths up to 2^64", "anchors": ["dlhn/src/de.rs: deserialize_string"]}
{"id": "C08", "title": "Binary decoding is uniform in length", "statement": "On 64-bit targets decoding a byte buffer succeeds exactly when the declared number of bytes is available and returns exactly those; the 4096-byte chunk loop is indistinguishable from one read.", "quantifier": "every declared length and every input", "why_tests_cant": "loop with data-dependent trip count", "anchors": ["dlhn/src/de.rs: deserialize_byte_buf"]}
{"id": "C09", "title": "Characters round-trip; decoding takes the first character", "statement": "Every char round-trips. Decoding a char from a string value returns its first character, fails with CharSize on the empty string, and silently ignores further characters, so the claim that only one-character strings are accepted is false.", "quantifier": "every Unicode scalar value, every string", "why_tests_cant": "1.1M chars and all strings", "anchors": ["dlhn/src/ser.rs: serialize_char", "dlhn/src/de.rs: deserialize_char"]}
{"id": "C10", "title": "Every serde value round-trips", "statement": "For every type built from the supported serde types, deserializing the bytes written by serializing a value of that type returns that value and leaves the following bytes unread.", "quantifier": "every type description, every value of it, every continuation, 32- and 64-bit targets, with and without overflow checks", "why_tests_cant": "unbounded nesting of types and values", "anchors": ["dlhn/src/ser.rs: impl Serializer for &mut Serializer", "dlhn/src/de.rs: impl Deserializer for &mut Deserializer"]}
{"id": "C11", "title": "Truncated data is always reported", "statement": "Deserializing any proper prefix of a serialized value yields Err(Read): never a value, another error or a panic.", "quantifier": "every type, value and cut position", "why_tests_cant": "every cut point of every value", "anchors": ["dlhn/src/de.rs: impl Deserializer"]}
{"id": "C12", "title": "Encodings are injective and prefix-free", "statement": "For one type, if the encoding of one value is a prefix of the encoding of another then the values are equal.", "quantifier": "every type and pair of values", "why_tests_cant": "quantifies over pairs", "anchors": ["dlhn/src/ser.rs", "dlhn/src/de.rs"]}
{"id": "C13", "title": "A stream of values reads back in order and then ends", "statement": "Values written one after another through one serializer are read back in order by repeated deserialization, after which the reader is empty and reading a value that occupies at least one byte gives Err(Read).", "quantifier": "every finite list of typed values", "why_tests_cant": "unbounded history", "anchors": ["README.md: stream example", "dlhn/src/ser.rs: Serializer", "dlhn/src/de.rs: Deserializer"]}
{"id": "C14", "title": "Decoding is local", "statement": "A successful decode consumes a prefix of the input and the result depends only on that prefix: appending or changing what follows changes neither the value nor the consumed length.", "quantifier": "every type and every input (not only valid encodings)", "why_tests_cant": "relates pairs of arbitrary inputs", "anchors": ["dlhn/src/de.rs"]}
{"id": "C15", "title": "Enum variants decode to the variant that was written", "statement": "The variant index read by derived Deserialize is the index written. True for enums with at most 16384 variants; false beyond, because indices are written as u32 varints but read as u16 varints.", "quantifier": "every variant index", "why_tests_cant": "needs an enum with more than 16384 variants", "anchors": ["dlhn/src/ser.rs: serialize_unit_variant, serialize_newtype_variant", "dlhn/src/de.rs: deserialize_identifier, VariantDeserializer"]}
{"id": "C16", "title": "Only string map keys are serialized", "statement": "Serializing a non-empty map whose first key is not a string fails, with UnsupportedKeyType for every key kind but 128-bit integers and keys whose own impl fails, which give Message, whatever the key and value are.", "quantifier": "every key value and map", "why_tests_cant": "all key kinds and nested values", "anchors": ["dlhn/src/ser.rs: MapKeySerializer"]}
{"id": "C17", "title": "Map decoding keeps the last value of a duplicated key and ignores entry order", "statement": "Decoding a BTreeMap returns strictly sorted keys, each bound to the last value given for it in the input; permuting entries with distinct keys decodes to the same map.", "quantifier": "every list of entries", "why_tests_cant": "all permutations and duplications", "anchors": ["dlhn/src/de.rs: deserialize_map, MapDeserializer", "dlhn/src/body/mod.rs: Header::Map"]}
{"id": "C18", "title": "Sequences of unknown length carry no length", "statement": "A sequence or map serialized with a known length decodes back; with an unknown length the serializer still reports success but writes no count, so what it wrote does not decode to what was serialized.", "quantifier": "every element list", "why_tests_cant": "success is reported, only decoding reveals it", "anchors": ["dlhn/src/ser.rs: serialize_seq, serialize_map"]}
{"id": "C19", "title": "Structs are the concatenation of their fields", "statement": "A struct, tuple or tuple struct serializes to the concatenation of its field encodings, independent of names; newtype and unit structs add nothing.", "quantifier": "every struct value and every renaming", "why_tests_cant": "all values and renamings", "anchors": ["dlhn/src/ser.rs: SerializeStruct, SerializeTuple, serialize_newtype_struct"]}
{"id": "C20", "title": "Headers round-trip", "statement": "Deserializing a serialized header returns the same header and leaves the rest unread, provided no tuple or enum has more than 65535 members; beyond that the member count is truncated and the round trip is lost.", "quantifier": "every header tree, any depth", "why_tests_cant": "unbounded trees; failing case needs 65536 members", "anchors": ["dlhn/src/header/ser.rs: Header::serialize", "dlhn/src/header/de.rs: deserialize_header"]}
{"id": "C21", "title": "Header wire codes", "statement": "Each header kind is written with its documented code number, member count and members in order.", "quantifier": "every header tree", "why_tests_cant": "unbounded trees", "anchors": ["dlhn/src/header/mod.rs: *_CODE", "dlhn/src/header/ser.rs: Header::serialize"]}
{"id": "C22", "title": "Header decoding accepts only known codes", "statement": "A header decode on arbitrary bytes returns Ok only if the consumed bytes parse by the grammar; an unassigned code is InvalidData; running out of input is an I/O error; proper prefixes of an encoding fail.", "quantifier": "every byte string", "why_tests_cant": "adversarial input", "anchors": ["dlhn/src/header/de.rs: deserialize_header"]}
{"id": "C23", "title": "Header decoding is bounded by input size, but so is its recursion", "statement": "A decoded header has at most as many nodes as bytes consumed and recursion depth at most the input length; but for every stack limit there is an input exceeding it, so decoding untrusted headers can overflow the stack.", "quantifier": "every byte string and every stack depth", "why_tests_cant": "unbounded depth", "anchors": ["dlhn/src/header/de.rs: deserialize_header"]}
{"id": "C24", "title": "Typed headers equal dynamic headers", "statement": "For every type implementing SerializeHeader, the bytes it writes equal those of the corresponding Header value and decode to it.", "quantifier": "every type built from the implementing types", "why_tests_cant": "unbounded type nesting", "anchors": ["dlhn/src/header/ser.rs: impl SerializeHeader for ..., tuple_impls"]}
{"id": "C25", "title": "Dynamic bodies round-trip under their header", "statement": "If a body validates against a header, serializing it and deserializing with that header returns the same body with exact consumption.", "quantifier": "every header and validating body, every continuation", "why_tests_cant": "unbounded trees", "anchors": ["dlhn/src/body/mod.rs: Serialize for Body, Body::deserialize"]}
{"id": "C26", "title": "Decoded bodies validate", "statement": "Whatever bytes Body::deserialize accepts under a header, the body it returns validates against that header; conversely a body validates exactly when some bytes decode to it.", "quantifier": "every header, every byte string", "why_tests_cant": "adversarial input", "anchors": ["dlhn/src/body/mod.rs: Body::deserialize, Body::validate"]}
{"id": "C27", "title": "Truncated bodies are reported", "statement": "Body::deserialize on a proper prefix of a serialized validating body yields Err(Read).", "quantifier": "every header, body and cut", "why_tests_cant": "every cut point", "anchors": ["dlhn/src/body/mod.rs: Body::deserialize"]}
{"id": "C28", "title": "Body wire format", "statement": "Every body is written exactly in the documented format (fixed bytes for bool/8-bit/floats, varints for wider integers, length-prefixed strings/binary/arrays/maps, bare tuples, index-prefixed enums, offset dates).", "quantifier": "every body", "why_tests_cant": "unbounded trees; encoder and decoder could be wrong together", "anchors": ["dlhn/src/body/mod.rs: Serialize for Body", "dlhn/src/ser.rs"]}
{"id": "C29", "title": "Typed data is readable through its header alone", "statement": "Bytes written for a value of a Rust type decode, using Body::deserialize with that type's header, to the Body carrying the same data.", "quantifier": "every type with a header and value", "why_tests_cant": "relates two decoders on all types", "anchors": ["dlhn/src/body/mod.rs", "dlhn/src/header/ser.rs", "dlhn/src/ser.rs"]}
{"id": "C30", "title": "Header plus body messages form a readable stream", "statement": "A sequence of messages, each a header followed by a body validating against it, reads back in order without any other framing.", "quantifier": "every finite list of messages", "why_tests_cant": "unbounded history", "anchors": ["dlhn/src/header/ser.rs", "dlhn/src/header/de.rs", "dlhn/src/body/mod.rs"]}
{"id": "C31", "title": "Re-encoding a decoded body is stable and never longer", "statement": "If bytes decode to a body, serializing it gives at most as many bytes as were consumed, and these decode to the same body again.", "quantifier": "every header and input", "why_tests_cant": "non-canonical inputs", "anchors": ["dlhn/src/body/mod.rs"]}
{"id": "C32", "title": "Where decoding can crash", "statement": "Deserialization through serde of the supported types never panics, except for date arithmetic overflow in builds with overflow checks. Body::deserialize additionally aborts when an array header declares a length whose allocation is refused.", "quantifier": "every type/header and every byte string", "why_tests_cant": "adversarial input", "anchors": ["dlhn/src/de.rs", "dlhn/src/body/mod.rs: Header::Array", "dlhn/src/date.rs"]}
{"id": "C33", "title": "Declared lengths do not drive memory requests in the serde decoder", "statement": "No single read or allocation request made while deserializing through serde exceeds 4096 bytes up front, whatever length the input declares; the dynamic array decoder violates this.", "quantifier": "every type, input and intermediate point", "why_tests_cant": "depends on all intermediate states", "anchors": ["dlhn/src/de.rs: deserialize_byte_buf, deserialize_string", "dlhn/src/body/mod.rs: Header::Array"]}
{"id": "C34", "title": "Big integers convert faithfully", "statement": "Converting a big integer to the wrapper, serializing, deserializing and converting back gives the same integer; the bytes are minimal two's-complement (or unsigned) little-endian; wrappers of two integers are equal exactly when the integers are.", "quantifier": "every integer", "why_tests_cant": "unbounded integers", "anchors": ["dlhn/src/big_int.rs", "dlhn/src/big_uint.rs"]}
{"id": "C35", "title": "Wrapper types and format modules are interchangeable", "statement": "For big integers, decimals and dates the wrapper and the format module write the same bytes; for big integers they also read every byte string alike. For decimals they disagree on some inputs.", "quantifier": "every value, every byte string", "why_tests_cant": "two implementations compared on all inputs", "anchors": ["dlhn/src/format/*.rs", "dlhn/src/big_int.rs", "dlhn/src/big_uint.rs", "dlhn/src/big_decimal.rs", "dlhn/src/date.rs", "dlhn/src/date_time.rs"]}
{"id": "C36", "title": "Decimals round-trip numerically and have one encoding per number", "statement": "A decimal reads back as the same number, and two decimals have the same bytes exactly when they are numerically equal (scales within i64 after normalization).", "quantifier": "every integer and scale", "why_tests_cant": "unbounded integers, all scales", "anchors": ["dlhn/src/big_decimal.rs", "dlhn/src/format/big_decimal.rs"]}
{"id": "C37", "title": "Derived ordering of wrappers", "statement": "Date ordering is chronological and DateTime ordering is chronological for values obtained from real times; ordering of BigInt/BigUint/BigDecimal wrappers is not numeric.", "quantifier": "every pair", "why_tests_cant": "pairs", "anchors": ["dlhn/src/date.rs", "dlhn/src/date_time.rs", "dlhn/src/big_int.rs"]}
{"id": "C38", "title": "Dates round-trip and invalid dates are rejected on conversion", "statement": "Every calendar date round-trips through both APIs; conversion to a calendar date succeeds exactly for real dates; decoding overflows only for the identified out-of-range inputs.", "quantifier": "every date, every input", "why_tests_cant": "calendar and overflow edges", "anchors": ["dlhn/src/date.rs", "dlhn/src/format/date.rs"]}
{"id": "C39", "title": "Times round-trip to the same instant", "statement": "Every time in range round-trips to the same instant (in UTC). Conversion back never fails for such values; but for some decodable values it panics.", "quantifier": "every instant and offset, every decoded pair", "why_tests_cant": "10^20 instants", "anchors": ["dlhn/src/date_time.rs", "dlhn/src/format/date_time.rs"]}
{"id": "C40", "title": "Writer faults are reported and leave a prefix", "statement": "With a writer that accepts any number of bytes per call, is interrupted or fails at any point, serialization returns Ok only if every byte was written, otherwise Err(Write), and what was written is a prefix of the full encoding.", "quantifier": "every value and every writer behaviour", "why_tests_cant": "schedules of partial writes", "anchors": ["dlhn/src/ser.rs: write_all(...).or(Err(Error::Write))"]}
{"id": "C41", "title": "A torn write is detected on reading", "statement": "If serialization of a value fails because the writer failed, deserializing what reached the writer gives Err(Read).", "quantifier": "every value and every fault schedule", "why_tests_cant": "crash points", "anchors": ["dlhn/src/ser.rs", "dlhn/src/de.rs"]}
{"id": "C42", "title": "Decoding does not depend on how the reader delivers bytes", "statement": "For any reader that delivers the same bytes in any chunking with any interruptions, decoding gives the same result as from one slice; an I/O error at some point is reported as Err(Read) if decoding needs bytes beyond it.", "quantifier": "every type, byte string, chunking and interruption schedule", "why_tests_cant": "schedules", "anchors": ["dlhn/src/de.rs", "dlhn/src/prefix_varint.rs: decode_prefix", "dlhn/src/header/de.rs"]}
{"id": "C43", "title": "Derived headers describe derived serialization", "statement": "For a struct or enum deriving both Serialize and SerializeHeader the header describes the bytes, if no variant other than trailing ones is skipped and no field inside a variant is skipped; otherwise the header is wrong.", "quantifier": "every struct/enum definition and value", "why_tests_cant": "ranges over programs", "anchors": ["dlhn_derive/src/lib.rs"]}
{"id": "C44", "title": "32-bit targets accept corrupted lengths", "statement": "On 32-bit targets lengths of 2^32 and more are truncated, so a truncated or over-declared string or binary can be accepted; on 64-bit targets this cannot happen. A usize or isize that does not fit is an error, and Body arrays and maps count to the declared number on every target.", "quantifier": "every declared length", "why_tests_cant": "platform dependent", "anchors": ["dlhn/src/de.rs: deserialize_string, deserialize_byte_buf"]}
{"id": "C45", "title": "Booleans and options are strict", "statement": "A boolean or an option tag decodes only from 0 or 1; any other byte is Err(Read).", "quantifier": "every byte, every type and continuation", "why_tests_cant": "nested in every type", "anchors": ["dlhn/src/de.rs: deserialize_bool, deserialize_option"]}
{"id": "C46", "title": "Floats are bit-exact", "statement": "Every f32/f64 bit pattern, including NaN payloads and signed zero, is written little-endian and read back bit for bit.", "quantifier": "every bit pattern", "why_tests_cant": "2^64 patterns", "anchors": ["dlhn/src/ser.rs: serialize_f32,f64", "dlhn/src/de.rs: deserialize_f32,f64"]}
{"id": "C47", "title": "Unsupported requests fail predictably", "statement": "128-bit integers are rejected with an error in both directions; borrowed str/bytes, self-describing and ignored requests panic on any input.", "quantifier": "every value and input", "why_tests_cant": "every nesting", "anchors": ["dlhn/src/ser.rs", "dlhn/src/de.rs: todo!()"]}
{"id": "C48", "title": "Work is not bounded by input size", "statement": "The claim that the number of decoded elements is at most the input size is false: for every n below 2^64 the encoding of n alone decodes to n unit elements; it holds when elements occupy at least one byte.", "quantifier": "every element type, count", "why_tests_cant": "needs 2^64 elements", "anchors": ["dlhn/src/de.rs: SeqDeserializer", "dlhn/src/body/mod.rs: Header::Array"]}
{"id": "C49", "title": "Re-encoding never grows", "statement": "Whatever bytes a type decodes from, serializing the decoded value takes at most as many bytes as were consumed, on 32-bit targets as well, where declared lengths are cut to 32 bits.", "quantifier": "every target, type and every accepted byte string", "why_tests_cant": "non-canonical inputs of every type", "anchors": ["dlhn/src/de.rs", "dlhn/src/ser.rs"]}
{"id": "C50", "title": "Decoding is idempotent through re-encoding", "statement": "A value decoded from arbitrary bytes belongs to its type, serializes without error, and the bytes written decode to the same value; on 32-bit targets too, provided that, if a byte buffer is in the type, fewer than 2^32 bytes were consumed.", "quantifier": "every target, type and accepted byte string", "why_tests_cant": "non-canonical inputs of every type", "anchors": ["dlhn/src/de.rs", "dlhn/src/ser.rs"]}
{"id": "C51", "title": "Error kinds", "statement": "A failing decode reports Err(Read), except that types containing a char may report CharSize, types containing an enum (and usize/isize on 32-bit targets) serde's own message.", "quantifier": "every type and every byte string", "why_tests_cant": "adversarial input", "anchors": ["dlhn/src/de.rs"]}
{"id": "C52", "title": "Header decoding memory is linear in the input", "statement": "The vectors reserved while decoding a header, over the whole run and whether or not it succeeds, amount to at most 65535 * size_of(Header) / 2 bytes per input byte.", "quantifier": "every byte string and stack depth", "why_tests_cant": "adversarial input", "anchors": ["dlhn/src/header/de.rs: Vec::with_capacity"]}
{"id": "C53", "title": "Decoded body size is linear in the input unless arrays have empty elements", "statement": "A decoded body has at most (nodes of the header) * max(1, bytes consumed) nodes, if no array in the header has elements that occupy no bytes; an array of units has as many elements as declared in at most nine bytes.", "quantifier": "every header and byte string", "why_tests_cant": "adversarial input", "anchors": ["dlhn/src/body/mod.rs: Header::Array"]}
{"id": "C54", "title": "A torn stream keeps its complete values", "statement": "If values are written one after another and the writer fails, reading the bytes back gives exactly the values completed before the failure and then Err(Read).", "quantifier": "every sequence of values, every fault schedule", "why_tests_cant": "crash points in sequences", "anchors": ["dlhn/src/ser.rs", "dlhn/src/de.rs"]}
{"id": "C55", "title": "Recursive types have no header", "statement": "SerializeHeader for a type that contains itself (through Vec or a map), or that uses such a type, overflows every stack; for every other set of types the header is written with no more nested derived impls than there are types, and is that of the type with all names resolved.", "quantifier": "every program of structs and enums, every stack size", "why_tests_cant": "ranges over programs; a test would crash", "anchors": ["dlhn_derive/src/lib.rs", "dlhn/src/header/ser.rs"]}
{"id": "C56", "title": "Typed and dynamic writers are interchangeable", "statement": "Serializing a value of a type and serializing the Body with the same data make the same write_all calls, failures included; so typed code reads what dynamic code wrote. (HashMap: when it iterates in key order.)", "quantifier": "every type with a header, every value", "why_tests_cant": "relates two encoders on all types", "anchors": ["dlhn/src/body/mod.rs", "dlhn/src/ser.rs", "dlhn_derive/src/lib.rs"]}
{"id": "C57", "title": "Changing the width of an integer field", "statement": "A number written as one of u16/u32/u64 (or i16/i32/i64) is read back as itself with another width exactly when it takes at most 7 bits per byte of the narrower one (plus 7); otherwise a different number is returned without error. The bytes of both widths agree under the same condition.", "quantifier": "every value, every pair of widths, every continuation", "why_tests_cant": "silent misreads sit at class boundaries of each pair of widths", "anchors": ["dlhn/src/prefix_varint.rs", "dlhn/src/ser.rs", "dlhn/src/de.rs"]}
{"id": "C58", "title": "Types sharing a wire format", "statement": "Byte buffers, strings, Vec<u8> and the bytes of big integers are written alike; a byte buffer and a Vec<u8> read the same from any input; a string is read exactly when the buffer is and its bytes are UTF-8. A map is written as a vector of (key, value). An Option is written as the two-variant enum and reads as it; the converse fails.", "quantifier": "every content and every input", "why_tests_cant": "relates two decoders on all inputs", "anchors": ["dlhn/src/ser.rs", "dlhn/src/de.rs"]}
{"id": "C59", "title": "Fields and variants added at the end", "statement": "A struct read with a type that lacks its last fields gives the shared fields and leaves the rest unread; the longer type never accepts the shorter value (the added field being one that occupies bytes), even for an Option. Nested in another value the unread bytes are misread. Variants appended to an enum do not disturb old values; an unknown variant is refused with serde's message.", "quantifier": "every field list, every value, every continuation", "why_tests_cant": "ranges over pairs of types", "anchors": ["dlhn/src/de.rs: deserialize_struct, deserialize_enum", "dlhn/src/ser.rs"]}
{"id": "C60", "title": "Headers are self-delimiting", "statement": "Two headers written at the start of the same bytes are equal, if member counts are at most 65535; otherwise not.", "quantifier": "every pair of headers and continuations", "why_tests_cant": "universal over pairs", "anchors": ["dlhn/src/header/ser.rs"]}
{"id": "C61", "title": "Encoded size range from the type", "statement": "From the type alone the least and greatest encoded size are computed: every value lies within, both ends are reached (or size is limited only by the address space), types without values are recognised, and any input shorter than the least size is refused.", "quantifier": "every type, every value, every input", "why_tests_cant": "ranges over all types, with exact extremes", "anchors": ["dlhn/src/ser.rs", "dlhn/src/de.rs"]}
{"id": "C62", "title": "Recursive types decode without a depth limit", "statement": "A value of user types that refer to each other reads back, and truncation is reported, whenever the stack has room for as many nested Deserialize impls as the value nests items; with less room the stack overflows (nothing limits the depth: n bytes overflow a stack for n calls). On any input the result is that of the type with its names resolved to that depth, or an overflow. Types that are not recursive need a fixed depth.", "quantifier": "every set of user types, every value, every input, every stack depth", "why_tests_cant": "nesting depth is unbounded; a test would crash", "anchors": ["dlhn/src/de.rs: deserialize_struct, deserialize_option, deserialize_enum"]}
{"id": "C63", "title": "Equality of bodies", "statement": "== on Body compares floats as numbers: two bodies are equal exactly when neither contains a NaN and they differ at most in the sign of zeros. So a body read back equals the written one iff it contains no NaN, and equal bodies have the same headers and encoded length, but not always the same bytes.", "quantifier": "every pair of bodies", "why_tests_cant": "all float bit patterns at every position", "anchors": ["dlhn/src/body/mod.rs: derive(PartialEq) on Body"]}
{"id": "C64", "title": "Size of dates and times", "statement": "A calendar date takes 2 to 5 bytes, an instant 2 to 11; the exact size is given by the ranges of year, ordinal, seconds and nanoseconds (e.g. one byte for the years 1936 to 2063).", "quantifier": "every calendar date, every instant of the years -9999 to 9999", "why_tests_cant": "all boundaries of the size classes", "anchors": ["dlhn/src/date.rs: Serialize for Date", "dlhn/src/format/date_time.rs: serialize"]}
{"id": "C65", "title": "Varint buffers", "statement": "encode_prefix_varint never indexes outside its fixed-size buffer: whatever the buffer held, it puts the encoding at its start, leaves the rest alone and returns the encoding's length, so the slice the callers take is the encoding. No smaller buffer would do.", "quantifier": "every value of every width, every buffer content", "why_tests_cant": "all values times all buffer contents", "anchors": ["dlhn/src/prefix_varint.rs: encode_prefix_varint, encode_prefix_varint_vec", "dlhn/src/ser.rs: serialize_u16..u64"]}
{"id": "C66", "title": "Derived types read back", "statement": "For a type deriving Serialize and Deserialize whose skip attributes agree, the bytes written read back as the value with defaults in the skipped fields, every truncation is an error, and only unimplemented borrowed strings, dates and times can panic. A value of a skipped variant fails to write with a message. Where attributes disagree, or a skipped variant precedes another, another value is read silently.", "quantifier": "every type built from the modelled leaves, every value, every input", "why_tests_cant": "types are an infinite family; tests derive a handful", "anchors": ["dlhn/src/de.rs: whole file", "dlhn/src/ser.rs: whole file", "dlhn_derive/src/lib.rs"]}
{"id": "C67", "title": "Which inputs decode, and to what", "statement": "On 64 bit targets an input decodes to a value of a type, leaving a rest, exactly if it is a code of the value followed by the rest, for an independent description of the codes (varints of any admissible length, any entry order and repeated keys in maps, chars with trailing text, dates within the checked range, struct impls passing any list of field names); the same for bodies of a header. No input has two readings.", "quantifier": "every type, every header, every input", "why_tests_cant": "an equivalence over all inputs; tests only see samples of either side", "anchors": ["dlhn/src/de.rs: whole file", "dlhn/src/body/mod.rs: Body::deserialize"]}
{"id": "C68", "title": "Keys that are not strings", "statement": "The serializer for map keys does not declare itself binary, unlike Serializer and Deserializer. A key whose impl asks (std's addresses) is therefore written as text but read as octets: reading gives other keys without an error and ends at the wrong place, for every address and map. As a value the same type reads back. Keys of any other type cannot be written (C16) but are read.", "quantifier": "every address, every map, every key type", "why_tests_cant": "wrong data without an error, on all maps of a class", "anchors": ["dlhn/src/ser.rs: MapKeySerializer, is_human_readable", "dlhn/src/de.rs: is_human_readable, MapDeserializer"]}
{"id": "C69", "title": "Which inputs are rejected, and how", "statement": "On 64 bit targets reading a type stops with a given error or crash exactly on the inputs an independent description assigns to it: the first part that is not a code of its type decides. Read errors are inputs that end too early, booleans above one, text that is not UTF-8; an empty char is a char size error; an unknown variant a message; a date out of range a crash with overflow checks only; unsupported types an error or todo!() once reached; a struct impl passing names other than its fields a message (repeated or left out, unless optional) or todo!() (unknown). The same for bodies, where vectors without room crash, and for headers on every target: an unassigned code is InvalidData, a short input an I/O error. Every input is accepted or rejected, in one way.", "quantifier": "every type (supported or not), every header, every input", "why_tests_cant": "an equivalence over all inputs; with C67 it fixes the outcome of every read", "anchors": ["dlhn/src/de.rs: whole file", "dlhn/src/body/mod.rs: Body::deserialize", "dlhn/src/header/de.rs: deserialize_header"]}
{"id": "C70", "title": "What is written, and how writing ends", "statement": "The bytes written for a value and the end of writing (success, or which error or panic) are the ones an independent description in plain arithmetic gives, for every value an impl can hand to the serializer: numbers by width, text and bytes after their length, announced lengths as announced, members in order, nothing for names, and on failure everything before the first 128 bit number, non-string key, part whose impl returns an error of its own, or panicking part. The same for bodies, where only dates can fail: out of range they panic with overflow checks, between the year and the day, and wrap without. Values of supported types never fail, and of all inputs accepted as a value the one written is the shortest.", "quantifier": "every value of the data model whose numbers fit their Rust types; every body; every build setting", "why_tests_cant": "an equivalence over all values, failing ones included", "anchors": ["dlhn/src/ser.rs: whole file", "dlhn/src/body/mod.rs: impl Serialize for Body", "dlhn/src/date.rs: impl Serialize"]}
{"id": "C71", "title": "What reading does to every input, on 32 bit targets too", "statement": "The outcome of reading any supported or unsupported type, and any body of a header, is the one an independent description gives for that input: the value and what is left, the error, or the crash. The description covers targets where a length of the input does not fit a usize: vectors, maps and big numbers lose the upper bits of their length, strings compare the truncated length with the bytes actually there, byte buffers come in whole blocks of 4096 bytes, usize and isize are refused, and arrays and maps of bodies are read to the full count.", "quantifier": "every type of the data model or header, every input, both pointer widths and build settings", "why_tests_cant": "an equivalence over all inputs; lengths of 2^32 and more cannot be produced by a test in memory", "anchors": ["dlhn/src/de.rs: whole file", "dlhn/src/body/mod.rs: Body::deserialize", "dlhn/src/big_uint.rs: impl Deserialize", "dlhn/src/big_decimal.rs: impl Deserialize"]}
{"id": "C72", "title": "Documents move from 64 to 32 bit targets", "statement": "Any input of less than 4 GiB that a 64 bit target decodes, in shortest form or not, decodes to the same value with the same rest on a 32 bit target built with the same overflow checks, for types without usize, isize and vectors of members that take no bytes; derived types likewise (what they skip does not matter), bodies when their vectors fit the memory. What derived types write does not depend on the platform. The converse is false, and so is the statement for usize and for vectors of units.", "quantifier": "every such type, header, input and pair of targets", "why_tests_cant": "quantifies over all documents and two targets at once", "anchors": ["dlhn/src/de.rs: deserialize_seq, deserialize_map, deserialize_string, deserialize_byte_buf", "dlhn/src/body/mod.rs: Body::deserialize"]}
{"id": "C73", "title": "What the format modules read", "statement": "For every input the outcome of dlhn::format::{big_uint,big_int,big_decimal,date,date_time}::deserialize is the one an independent description gives: the number the bytes stand for; digits and a scale, the scale only if the digits are not zero as a number; a date of the calendar, Message for any other year and day, a panic where the offsets overflow; an instant with whole seconds carried over from the nanoseconds, Message for seconds outside the years -9999 to 9999, a panic if only the nanoseconds leave them.", "quantifier": "every input, both pointer widths and build settings", "why_tests_cant": "an equivalence over all inputs", "anchors": ["dlhn/src/format/big_uint.rs", "dlhn/src/format/big_int.rs", "dlhn/src/format/big_decimal.rs", "dlhn/src/format/date.rs", "dlhn/src/format/date_time.rs"]}
{"id": "C74", "title": "Failures that more input cannot change", "statement": "On 64 bit targets, if reading a value or body crashes or fails with an error other than Read, it does so with anything appended to the input. A header that fails with UnexpectedEof is the start of some header, and one that fails with InvalidData is not. Err(Read) in contrast does not tell whether more input would help, and on 32 bit targets CharSize is not final.", "quantifier": "every type, header, input and continuation", "why_tests_cant": "quantifies over all continuations of all inputs", "anchors": ["dlhn/src/de.rs: whole file", "dlhn/src/body/mod.rs: Body::deserialize", "dlhn/src/header/de.rs: deserialize_header"]}
{"id": "C75", "title": "Nesting of calls on headers and bodies", "statement": "Reading a body nests calls no deeper than its header, for any input, so a stack that sufficed to read the header suffices for every body of it. With less room reading either gives the same result or overflows, and for a written body it overflows exactly if the body has more levels than there is room. Writing a body or header needs as many nested calls as it has levels; with less, a prefix of its bytes is written before the overflow. Validation needs no more than the smaller of the two depths, matching or not, and all levels of a matching body.", "quantifier": "every header, body, input and amount of stack", "why_tests_cant": "quantifies over all nestings and all stack sizes", "anchors": ["dlhn/src/body/mod.rs: Body::deserialize, impl Serialize for Body, Body::validate", "dlhn/src/header/ser.rs: impl SerializeHeader", "dlhn/src/header/de.rs: deserialize_header"]}
{"id": "C76", "title": "Memory granted over a whole read", "statement": "What a read allocates up front (Vec::with_capacity, vec![0; n]) adds up, on 64 bit targets, to at most the bytes it read plus one buffer of 4096 for any typed value, whatever the lengths in the input claim; on 32 bit targets to 4096 per byte. For a body whose header has no arrays of elements that take no bytes, a successful read gets at most a constant plus a constant times the bytes read, both computed from the header; a failed read in addition one largest granted request per nested array, which is reached with nine bytes of input per level. Arrays of units are granted any amount for nine bytes.", "quantifier": "every type, header, input, size of Body, memory limit", "why_tests_cant": "sums over all allocations of all runs", "anchors": ["dlhn/src/de.rs: deserialize_byte_buf", "dlhn/src/body/mod.rs: Body::deserialize"]}
{"id": "C77", "title": "Changes of a type that keep old data readable", "statement": "Data written for a type reads back, as the correspondingly converted value and with nothing more consumed, after any chain of the following changes anywhere inside the type: bool to u8 or Option<()>, char to String to byte buffer, byte buffer to and from Vec<u8>, to and from big integers, dates to pairs of numbers, usize to u64, renamed or regrouped members (struct, tuple, newtype, nesting of tuples), Option to a two variant enum, map to list of pairs, variants that change shape or content in these ways, and variants appended. The same holds for headers and bodies.", "quantifier": "every chain of changes, every value, every following input", "why_tests_cant": "quantifies over all derivations of compatible types", "anchors": ["dlhn/src/ser.rs: impl Serializer", "dlhn/src/de.rs: impl Deserializer", "dlhn/src/body/mod.rs: Body::deserialize"]}
{"id": "C78", "title": "What derived types read from every input", "statement": "The outcome of reading a type with derived impls (structs and enums of any style, skip attributes, the library's big numbers and dates, the format modules, Option, Vec, string keyed maps, tuples) is for every input the one an independent description gives: fields in order, a skipped one taking its default without reading, variants numbered without the skipped ones, other numbers a message, the first part that fails deciding, and of entries with one key the last. Renaming fields or changing the style of a struct or variant changes no outcome.", "quantifier": "every such type, every choice of defaults, every input, both pointer widths and build settings", "why_tests_cant": "an equivalence over all inputs and all derivable types", "anchors": ["dlhn/src/de.rs: whole file", "dlhn/src/format", "dlhn_derive/src/lib.rs"]}
{"id": "C79", "title": "Inputs that end too early", "statement": "On 64 bit targets, among the inputs rejected with Err(Read), those that decode once something is appended are exactly the ones an independent description gives: the input ends inside a number, a length, the announced bytes, a character that still fits in its text, or a number of a variant, count or date that can still become an allowed one, after parts that are complete and before parts that have any code at all. All other Err(Read) inputs stay undecodable whatever follows. The same for bodies of a header.", "quantifier": "every type of the data model, every header, every input and continuation", "why_tests_cant": "quantifies over all inputs and all their continuations", "anchors": ["dlhn/src/de.rs: whole file", "dlhn/src/body/mod.rs: Body::deserialize"]}
{"id": "C80", "title": "What derived types write, and how writing ends", "statement": "Writing any value of a type deriving Serialize writes exactly the bytes, and ends in exactly the way, that an independent description gives: the fields in order without the skipped ones and without those the function named in skip_serializing_if leaves out (a newtype variant does not ask it), variants numbered among all variants, a value of a skipped variant refused with Message after what precedes it, big numbers in their shortest form, decimals without trailing zeros (a panic or a wrapped scale if that leaves the i64 range), dates that panic or wrap out of range. What is in skipped fields does not matter.", "quantifier": "every type built from the modelled leaves, every value, every answer of skip_serializing_if, every build setting", "why_tests_cant": "types are an infinite family; failing writes included", "anchors": ["dlhn/src/ser.rs: whole file", "dlhn/src/format/big_decimal.rs", "dlhn/src/date.rs", "dlhn_derive/src/lib.rs"]}
{"id": "C81", "title": "Reading stops at the last byte of a value", "statement": "Reading a value, header or body makes no call to the reader after the one that delivered its last byte, so it returns even if the next call would fail or block; what later calls would do stays as it was. A value without bytes needs no call.", "quantifier": "every decoder, every input it takes a value from, every chunking with interruptions, everything the reader might do later, every build setting", "why_tests_cant": "one cannot try all chunkings and futures of a connection", "anchors": ["dlhn/src/de.rs: whole file", "dlhn/src/header/de.rs: whole file", "dlhn/src/body/mod.rs:79-158"]}
{"id": "C82", "title": "Structs with flattened fields are written but cannot be read back", "statement": "A struct with serde(flatten) is written without an error and without a count: for each named value the length of the name, the name and the value; a flattened number, text or sequence is refused with Message. Reading it back never succeeds: the length of the first name is taken for the number of entries, so it ends in the todo!() of deserialize_any (always if the name starts with an ASCII letter) or in Err(Read). Whatever the input, no field gets its value from it.", "quantifier": "every struct of plain and flattened fields, every value, every continuation, every build setting", "why_tests_cant": "absence of any readable value", "anchors": ["dlhn/src/ser.rs:235-240,336-357", "dlhn/src/de.rs:62-67,338-344,369-374,420-455"]}
{"id": "C83", "title": "Overflow checks only add panics", "statement": "Reading any type, body or derived type in a build with overflow checks (debug) either panics with an arithmetic overflow or does exactly what a build without them (release) does: same value, same error or panic, same input left over. For headers the two builds never differ. Writing: either the checked build panics with an overflow after handing over a first part of what the other build hands over, or both hand over the same bytes and end in the same way.", "quantifier": "every type, header, body, value, every behaviour of the reader and of the writer, every platform", "why_tests_cant": "both builds would have to be run side by side on every input", "anchors": ["dlhn/src/date.rs:8-80", "dlhn/src/format/date.rs", "dlhn/src/format/big_decimal.rs", "dlhn/src/ser.rs: whole file", "dlhn/src/de.rs: whole file", "dlhn/src/header/de.rs: whole file", "dlhn/src/body/mod.rs:37-158"]}
{"id": "C84", "title": "Types of the standard library", "statement": "Result, Bound, ranges, arrays, tuples, sequences and ordered sets, NonZero integers, Duration, SystemTime, CString, OsString, PathBuf and the network addresses, nested in any way, also as values of maps and in fields of derived structs and enums, through serde's own impls: reading one ends as reading a plain wire type does (Duration: a u64 and a u32; Result: an enum of two; a socket address: an enum of octets and port; and so on), the wire value then standing for exactly one value or being refused with Message (zero for NonZero, an overflowing Duration or SystemTime, a nul in a CString; in a map also when a later entry replaces the value). Writing writes what the wire type's value writes, and the value comes back; cut short anywhere, on any target, it gives Err(Read). Lost on the way: flow information and scope of an IPv6 socket address, the mark on a used-up inclusive range. Times before 1970 and paths that are not UTF-8 are refused and write nothing.", "quantifier": "every such type, value and input", "why_tests_cant": "Combinations of generic types and refusals in the middle of nested values cannot be enumerated", "anchors": [["dlhn/src/ser.rs", 171, 265], ["dlhn/src/de.rs", 271, 387], ["dlhn/src/de.rs", 494, 547]]}
{"id": "C85", "title": "Calls on the reader and the writer", "statement": "Reading anything from any input calls the reader (read_exact, take + read_to_end) at most twice for each byte consumed; a read that fails or panics makes at most one call more than two for each byte of the input, whatever lengths the input declares. A Vec<u8> or a big integer of n bytes takes a call for each byte, a ByteBuf with the same bytes on the wire at most n/4096 + 3. Writing a value or a header calls write_all at most twice for each byte written, also when it fails half way.", "quantifier": "every type, body, header, derived, recursive or standard library type, every input and every value", "why_tests_cant": "Tests do not count calls, and cannot try every declared length", "anchors": [["dlhn/src/de.rs", 69, 269], ["dlhn/src/ser.rs", 57, 149], ["dlhn/src/prefix_varint.rs", 18, 22], ["dlhn/src/header/de.rs", 9, 78], ["dlhn/src/header/ser.rs", 255, 305]]}
{"id": "C86", "title": "All kinds of types are read equally safely", "statement": "Derived types with any attributes, recursive types and types of the standard library share the guarantees of plain types: no buffer larger than 4096 bytes is requested up front; on 64-bit targets a value is decided by exactly the bytes consumed, every proper prefix of them gives Err(Read), and a reader that fails in the middle, however it chunks the data, gives Err(Read) and never a value. A derived type fails only with Read or a message, the others also with CharSize. A standard library type panics only on a date inside it, with overflow checks.", "quantifier": "every type of each kind, every attribute, input, chunking and fault", "why_tests_cant": "Tests read valid input from slices", "anchors": [["dlhn/src/de.rs", 69, 382]]}
{"id": "C87", "title": "What was read of any type can be written again", "statement": "On a 64-bit target, or on a 32-bit one from fewer than 2^32 bytes, let a value of a derived type (without skip attributes that differ between the two directions, late skipped variants or a BigDecimal), of a recursive type or of a standard library type have been read from any bytes, valid in any non-canonical way the reader tolerates. Serializing it then succeeds, the output is read back as the same value and leaves whatever follows untouched, and it is no longer than the bytes that were consumed, unless a DateTime, Duration or SystemTime is in it: their surplus nanoseconds move into the seconds, which may take one byte more. A BigDecimal is a true exception: one that was read may panic the serializer or be written as another one, and longer.", "quantifier": "all targets, types and byte strings", "why_tests_cant": "re-encoding data from other writers (services that normalise, proxies, compaction) needs inputs no serializer of this crate emits; which types may grow or fail is not visible from round-trip tests", "anchors": [["dlhn/src/de.rs", 69, 382], ["dlhn/src/ser.rs", 31, 340], ["dlhn/src/format/big_decimal.rs", 11, 57], ["dlhn/src/format/date_time.rs", 9, 60]]}
{"id": "C88", "title": "Aliases of fields make a struct unreadable or change nothing", "statement": "A struct with serde(alias) on a field is read exactly as the struct without aliases if the generated code announces only the names of the fields. If it announces the aliases too, reading stops with an error after the first field that has one, whatever follows, so no input is ever accepted: every value of the type is written without an error and refused with a message when read back. Structs without aliases are read the same way in both cases.", "quantifier": "every struct, every set of aliases without repeated names, every input", "why_tests_cant": "needs all inputs and all placements of aliases; the crate's tests have no alias", "anchors": ["dlhn/src/de.rs: deserialize_struct", ["dlhn/src/de.rs", 457, 492]]}
{"id": "C89", "title": "Memory asked for while containers grow is linear in the input", "statement": "Vectors, texts, byte buffers and maps grow while they are filled. This changes no outcome unless the system refuses a request, and then the program is stopped by that refusal. All that reading a typed value asks for, counting every buffer that is outgrown, is at most a constant of the type times the bytes read, and 4096 bytes more if it fails; so with memory in that proportion to the input no request is refused. For a body the same holds of what is granted, with the fixed part of its header and the requests of its unfinished arrays added. No less is asked for than the finished value or body occupies, so that is bounded too. The one exception are members that take memory but no input, such as structs whose fields are all skipped: at most nine bytes of input then bring down any program.", "quantifier": "all targets, types, headers and inputs, every allocator that serves texts and maps within the stated averages", "why_tests_cant": "amortised growth has to be summed over all sequences of inputs; tests of a few sizes see neither the constant nor the refusals", "anchors": [["dlhn/src/de.rs", 210, 269], ["dlhn/src/de.rs", 390, 455], ["dlhn/src/body/mod.rs", 78, 158]]}
{"id": "C90", "title": "Types with conversions of their own", "statement": "A type that serde's from, try_from, into, transparent, with, serialize_with or deserialize_with route through another type, in any nesting of options, sequences, tuples, maps, structs and enums over library types, is read and written as that other type: every input ends as reading the wire type does, with the conversions applied, or with Message where a conversion refuses; conversions add no panic and no other error, and those that cannot fail refuse no input the wire type takes. What is written comes back as the conversions make it, is readable by whoever knows the wire type alone, and cut short is Read. A conversion that fails while writing leaves nothing of its value in the output. Whether the value comes back the same is up to the conversions.", "quantifier": "all targets, types, conversion functions, user types, values and inputs", "why_tests_cant": "conversions are arbitrary user functions; tests try single ones at single places", "anchors": ["dlhn/src/ser.rs: serialize_newtype_struct", "dlhn/src/de.rs: deserialize_newtype_struct", ["dlhn/src/ser.rs", 18, 22], ["dlhn/src/de.rs", 19, 23], ["dlhn/src/de.rs", 346, 356]]}
{"id": "C91", "title": "Untagged and internally tagged enums and borrowed text are written but cannot be read", "statement": "Untagged and internally tagged enums, dynamic values, &str and &[u8] can be written, but reading them makes a request that is not implemented: on every input a type containing them is read as one that asks for a dynamic value there, so a successful read has met none. What was written of any nesting of options, sequences, tuples, maps, structs and enums panics when read, whatever follows and even if writing it failed half-way, as soon as the value has one of them anywhere, and comes back if it has none. An internally tagged variant is written as its name followed by its fields, or as one more entry of its map, and is refused with Message for other payloads; untagged variants are not distinguishable.", "quantifier": "all targets, types, values and inputs", "why_tests_cant": "the panic depends on where in the value the enum is; tests of empty collections and None pass", "anchors": [["dlhn/src/de.rs", 62, 67], ["dlhn/src/de.rs", 203, 208], ["dlhn/src/de.rs", 239, 244], "dlhn/src/ser.rs: serialize_struct", "dlhn/src/ser.rs: serialize_map"]}
{"id": "C92", "title": "The order in which hash sets and hash maps are iterated does not matter", "statement": "Take a value of types of the standard library with hash sets and hash maps (or ordered ones) anywhere in it, and any other order of the members and entries, at any depth. Both are written without error as the same number of bytes, though not the same bytes, and both are read back as the same value; cut short anywhere, either gives Err(Read). Members of a set that are equal without being identical are the exception: of these the first one written is kept.", "quantifier": "every such type, value, order and cut", "why_tests_cant": "the orders of nested containers multiply, and a test sees the one its hasher gives", "anchors": ["dlhn/src/ser.rs: serialize_seq", "dlhn/src/ser.rs: serialize_map", "dlhn/src/de.rs: deserialize_seq", "dlhn/src/de.rs: deserialize_map, MapDeserializer"]}
{"id": "C93", "title": "Types with conversions, aliases or unreadable parts are read as safely as plain ones", "statement": "Let a type have conversions of its own (from, try_from, into, with; any functions that end), aliased fields, or parts that cannot be read (untagged and internally tagged enums, borrowed text). Reading it asks for no buffer of more than 4096 bytes up front, makes at most two calls of the reader for each byte consumed and one more than two for each byte there if it does not deliver a value, and reports only Read, a message, or CharSize. On a 64-bit target the value is decided by the bytes consumed and by nothing shorter, and a reader that fails is treated as one that ends there. With conversions, the only panic is a date's overflow in a build with overflow checks. What was read of a type with conversions can be written again, reads back as the same value and takes no more bytes (unless Durations or SystemTimes are in it), if writing undoes what reading did; without that, a value that was read may be unwritable, or drift.", "quantifier": "all targets, types, conversions, inputs and ways a reader may deliver them", "why_tests_cant": "the guarantees quantify over every user function and every input; a test knows a few of each", "anchors": ["dlhn/src/de.rs: deserialize_struct, MapAccess for StructDeserializer", "dlhn/src/de.rs: deserialize_any", "dlhn/src/de.rs: deserialize_string", "dlhn/src/de.rs: deserialize_byte_buf", "dlhn/src/ser.rs: Error::custom", "dlhn/src/de.rs: Error::custom"]}
{"id": "C94", "title": "The memory asked for per byte does not add up over nesting, and recursive types have one bound for every depth", "statement": "Reading a value asks for at most P bytes per byte of input, where P is the largest of what the parts of its type take (a vector: twelve times the size of an element; a text: sixteen) and not their sum: vectors nested n deep need no more per byte than two deep. If the type always takes input, one byte of the input remains unspent. For user types that refer to each other, through Box, Option, Vec, maps, tuples and enums, the same bound holds with one P for every depth of recursion, plus the boxes that come before the first byte. If that much memory can be had, reading gives what it gives without counting memory; otherwise it can only fail by a refused request.", "quantifier": "all readers' inputs, all types and families of recursive types, all depths, all layouts and allocators that give nothing to what takes no input, all targets", "why_tests_cant": "An input that makes memory grow with depth times length needs a type and an input found together; tests fix both and do not measure allocation.", "anchors": ["dlhn/src/de.rs: deserialize_seq", "dlhn/src/de.rs: deserialize_map", "dlhn/src/de.rs: deserialize_option", "dlhn/src/de.rs: deserialize_enum"]}
{"id": "C95", "title": "derive(SerializeHeader) sees only types, order and skipping", "statement": "If two types differ only in the names of fields and variants, in whether fields are named or positional, and in attributes other than skip, skip_serializing and skip_serializing_if, then derive(SerializeHeader) gives both the same header or neither compiles; also for types that refer to each other. Their values are written with the same calls on the writer (as long as nothing is left out on a condition), so that the header of one and the data of the other form a readable message. Attributes that change what is written are not seen either: with flatten, untagged, tag or into, a header is derived that does not describe the data, and reading by it can deliver another value without an error.", "quantifier": "all pairs of types that differ in labels only; all values of both; the four attributes are witnesses", "why_tests_cant": "Tests compare a handful of structs with expected bytes; that no name or attribute matters is a statement about all of them, and the silent misreading needs the right value to be seen.", "anchors": ["dlhn_derive/src/lib.rs: derive_serialize_header", "dlhn_derive/src/lib.rs: is_skip_field", "dlhn_derive/src/lib.rs: has_skip_serializing_if", "dlhn/src/ser.rs: serialize_struct"]}
{"id": "C96", "title": "The memory that standard library types ask for does not add up over nesting", "statement": "Reading a value whose type is made of standard library types (Option, Vec, BTreeSet, arrays, tuples, ranges, Bound, Result, CString, OsString, PathBuf, maps, times, addresses, and user structs and enums of them) asks for at most P bytes per byte of input read, where P is the largest of what the parts take and not their sum, plus two bytes for every CString that is always there. If the type always takes input, one byte of the input remains unspent. If that much memory can be had, reading gives what it gives without counting memory; otherwise it can only fail by a refused request. A set of members that ask for nothing themselves asks for exactly what the members it keeps take: members read again are not paid for again.", "quantifier": "all inputs, all such types however nested, all layouts and allocators that give nothing to what takes no input, all targets", "why_tests_cant": "An input that makes memory grow with depth times length needs a type and an input found together; tests fix both and do not measure allocation.", "anchors": ["dlhn/src/de.rs: deserialize_seq", "dlhn/src/de.rs: deserialize_byte_buf", "dlhn/src/de.rs: deserialize_map", "dlhn/src/de.rs: deserialize_enum"]}
{"id": "C97", "title": "What a value holds was asked for, and is bounded by the input", "statement": "When reading a value of a standard library type or of a family of recursive user types succeeds, the memory that the value occupies outside itself (slots of vectors, nodes of maps and sets for the entries kept, texts, boxes of recursive items at every depth) is no more than what was asked for while reading. With the bounds of C94 and C96 it is at most a constant of the type per byte of input, the same at every depth.", "quantifier": "all inputs, all such types and families, all depths, all layouts and allocators", "why_tests_cant": "The gap between memory counted and memory held cannot be observed by tests of values; a request missing from the account shows only for the container that forgot it.", "anchors": ["dlhn/src/de.rs: deserialize_seq", "dlhn/src/de.rs: deserialize_map", "dlhn/src/de.rs: deserialize_byte_buf", "dlhn/src/de.rs: deserialize_struct"]}
{"id": "C98", "title": "Memory of headers, with their boxes", "statement": "Reading a header asks, on success, for exactly the size of one Header for each node but the outermost: the slots of tuples and enums and the boxes of optionals, arrays and maps, and nothing else. In any case, also when the input is invalid or ends early, it asks for at most 65535 Headers for every four bytes of input; inputs of every length reach that factor. With that much memory no request is refused, and otherwise the boxes change no outcome.", "quantifier": "all inputs, all stack depths, all sizes of Header, both pointer widths, all memory limits", "why_tests_cant": "The factor comes from a count in the input that is believed before any member is read; tests feed short valid headers only and never look at what is allocated.", "anchors": ["dlhn/src/header/de.rs: deserialize_header"]}
{"id": "C99", "title": "Memory of a message is bounded by the product of header and body", "statement": "When a header and then a body of that header are read, the header asks for memory in proportion to its own bytes, and the body for at most a constant times the bytes of the header times one more than the bytes of the body, provided no array of the header has members that take no input. The product cannot be replaced by a sum: an array of pairs nested w deep takes 3 w + 2 bytes of header and asks for 2 w + 1 bodies for every byte of body.", "quantifier": "all messages, all headers, all layouts and allocators; all depths and lengths of the family", "why_tests_cant": "The bound multiplies two lengths that tests keep small; the family that reaches it grows both.", "anchors": ["dlhn/src/header/de.rs: deserialize_header", "dlhn/src/body/mod.rs: Body::deserialize"]}
{"id": "C100", "title": "Memory of derived types with skipped fields", "statement": "Reading a derived type, with skipped fields and variants and with the big number fields of the format modules, asks in total for memory linear in the bytes read, counting every buffer that is outgrown, unless a vector has members that take memory but no input; what skipped fields are made of does not matter. What a complete value holds, skipped fields and digits of big numbers apart, was asked for and is bounded likewise. Memory in that proportion is enough: reading then ends as if memory were no matter. A vector of structs whose fields are all skipped is such an exception: at most nine bytes bring down the program.", "quantifier": "all derived types with skip attributes, all inputs, all layouts and allocators", "why_tests_cant": "The bound must hold for every combination of fields and attributes; the exception shows only with an absurd count.", "anchors": ["dlhn/src/de.rs: deserialize_seq", "dlhn/src/de.rs: deserialize_struct", "dlhn/src/format/big_uint.rs: visit_seq", "dlhn/src/format/big_decimal.rs: visit_seq"]}
