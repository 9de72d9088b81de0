#!/usr/bin/env python3
"""Writes /verif/properties.jsonl. One tuple per property."""
import json, os
P = []
def p(id, title, statement, quantifier, why, anchors):
    P.append(dict(id=id, title=title, statement=statement, quantifier=quantifier, why_tests_cant=why, anchors=anchors))
S="dlhn/src/ser.rs"; D="dlhn/src/de.rs"; V="dlhn/src/prefix_varint.rs"; Z="dlhn/src/zigzag.rs"; B="dlhn/src/body/mod.rs"; HS="dlhn/src/header/ser.rs"; HD="dlhn/src/header/de.rs"
p("C01","Unsigned integers round-trip","Serializing any u8/u16/u32/u64 and deserializing it as the same type returns the same number and leaves the reader exactly at the first byte after the encoding.","every value of each width and every byte string that follows it","2^64 values times all continuations; unit tests try powers of two only",[V+": encode_prefix_varint, decode_prefix_varint",S+": serialize_u8..u64",D+": deserialize_u8..u64"])
p("C02","Exact wire format and size of unsigned integers","The encoding of a u16/u32/u64 is the documented prefix varint: k leading one bits announce k further bytes, low-order bits first, 7 payload bits per byte, with a raw little-endian fallback; it is the shortest class that fits and never exceeds 3/5/9 bytes.","every value of each width","byte-exact claim over the whole value range, in particular at the class boundaries of every shift",[V+": encode_prefix_varint"])
p("C03","Varint decoding is total and its length is fixed by the first byte","On any byte string the varint decoder either fails because input ends too early, or returns a number in range of the type after consuming a number of bytes determined by the first byte alone; it never panics.","every byte string","input space is unbounded and adversarial",[V+": decode_prefix_varint"])
p("C04","Signed integers round-trip through zigzag","Zigzag maps 0,-1,1,-2,... to 0,1,2,3,... bijectively on each width, and i8/i16/i32/i64 round-trip through the serializer and deserializer with exact consumption.","every signed value of each width, every unsigned code, every continuation","full integer ranges incl. MIN/MAX edge arithmetic",[Z+": encode_zigzag, decode_zigzag",S+": serialize_i8..i64",D+": deserialize_i8..i64"])
p("C05","Re-encoding a decoded varint never grows it; accepted encodings are not unique","Whatever byte string a varint decoder accepts, re-encoding the result yields at most as many bytes. The stronger claim that each number has only one accepted encoding is false: overlong forms are accepted.","every accepted byte string of each width","needs all non-canonical byte strings, which tests of the encoder never produce",[V+": decode_prefix_varint"])
p("C06","Strings are accepted exactly when they are well-formed UTF-8","A decoded string is Ok only if its bytes are the concatenation of UTF-8 encodings of Unicode scalar values, and every such concatenation is accepted.","every byte string","all malformed sequences cannot be enumerated",[D+": deserialize_string"])
p("C07","String decoding is uniform in length","On 64-bit targets decoding a string succeeds exactly when the declared number of bytes is available and is UTF-8, returns those bytes and stops right after them; the 128-byte fast path and the streaming path are indistinguishable.","every declared length and every input","two code paths, lengths up to 2^64",[D+": deserialize_string"])
p("C08","Binary decoding is uniform in length","On 64-bit targets decoding a byte buffer succeeds exactly when the declared number of bytes is available and returns exactly those; the 4096-byte chunk loop is indistinguishable from one read.","every declared length and every input","loop with data-dependent trip count",[D+": deserialize_byte_buf"])
p("C09","Characters round-trip; decoding takes the first character","Every char round-trips. Decoding a char from a string value returns its first character, fails with CharSize on the empty string, and silently ignores further characters, so the claim that only one-character strings are accepted is false.","every Unicode scalar value, every string","1.1M chars and all strings",[S+": serialize_char",D+": deserialize_char"])
p("C10","Every serde value round-trips","For every type built from the supported serde types, deserializing the bytes written by serializing a value of that type returns that value and leaves the following bytes unread.","every type description, every value of it, every continuation, 32- and 64-bit targets, with and without overflow checks","unbounded nesting of types and values",[S+": impl Serializer for &mut Serializer",D+": impl Deserializer for &mut Deserializer"])
p("C11","Truncated data is always reported","Deserializing any proper prefix of a serialized value yields Err(Read): never a value, another error or a panic.","every type, value and cut position","every cut point of every value",[D+": impl Deserializer"])
p("C12","Encodings are injective and prefix-free","For one type, if the encoding of one value is a prefix of the encoding of another then the values are equal.","every type and pair of values","quantifies over pairs",[S,D])
p("C13","A stream of values reads back in order and then ends","Values written one after another through one serializer are read back in order by repeated deserialization, after which the reader is empty and reading a value that occupies at least one byte gives Err(Read).","every finite list of typed values","unbounded history",["README.md: stream example",S+": Serializer",D+": Deserializer"])
p("C14","Decoding is local","A successful decode consumes a prefix of the input and the result depends only on that prefix: appending or changing what follows changes neither the value nor the consumed length.","every type and every input (not only valid encodings)","relates pairs of arbitrary inputs",[D])
p("C15","Enum variants decode to the variant that was written","The variant index read by derived Deserialize is the index written. True for enums with at most 16384 variants; false beyond, because indices are written as u32 varints but read as u16 varints.","every variant index","needs an enum with more than 16384 variants",[S+": serialize_unit_variant, serialize_newtype_variant",D+": deserialize_identifier, VariantDeserializer"])
p("C16","Only string map keys are serialized","Serializing a non-empty map whose first key is not a string fails, with UnsupportedKeyType for every key kind but 128-bit integers and keys whose own impl fails, which give Message, whatever the key and value are.","every key value and map","all key kinds and nested values",[S+": MapKeySerializer"])
p("C17","Map decoding keeps the last value of a duplicated key and ignores entry order","Decoding a BTreeMap returns strictly sorted keys, each bound to the last value given for it in the input; permuting entries with distinct keys decodes to the same map.","every list of entries","all permutations and duplications",[D+": deserialize_map, MapDeserializer",B+": Header::Map"])
p("C18","Sequences of unknown length carry no length","A sequence or map serialized with a known length decodes back; with an unknown length the serializer still reports success but writes no count, so what it wrote does not decode to what was serialized.","every element list","success is reported, only decoding reveals it",[S+": serialize_seq, serialize_map"])
p("C19","Structs are the concatenation of their fields","A struct, tuple or tuple struct serializes to the concatenation of its field encodings, independent of names; newtype and unit structs add nothing.","every struct value and every renaming","all values and renamings",[S+": SerializeStruct, SerializeTuple, serialize_newtype_struct"])
p("C20","Headers round-trip","Deserializing a serialized header returns the same header and leaves the rest unread, provided no tuple or enum has more than 65535 members; beyond that the member count is truncated and the round trip is lost.","every header tree, any depth","unbounded trees; failing case needs 65536 members",[HS+": Header::serialize",HD+": deserialize_header"])
p("C21","Header wire codes","Each header kind is written with its documented code number, member count and members in order.","every header tree","unbounded trees",["dlhn/src/header/mod.rs: *_CODE",HS+": Header::serialize"])
p("C22","Header decoding accepts only known codes","A header decode on arbitrary bytes returns Ok only if the consumed bytes parse by the grammar; an unassigned code is InvalidData; running out of input is an I/O error; proper prefixes of an encoding fail.","every byte string","adversarial input",[HD+": deserialize_header"])
p("C23","Header decoding is bounded by input size, but so is its recursion","A decoded header has at most as many nodes as bytes consumed and recursion depth at most the input length; but for every stack limit there is an input exceeding it, so decoding untrusted headers can overflow the stack.","every byte string and every stack depth","unbounded depth",[HD+": deserialize_header"])
p("C24","Typed headers equal dynamic headers","For every type implementing SerializeHeader, the bytes it writes equal those of the corresponding Header value and decode to it.","every type built from the implementing types","unbounded type nesting",[HS+": impl SerializeHeader for ..., tuple_impls"])
p("C25","Dynamic bodies round-trip under their header","If a body validates against a header, serializing it and deserializing with that header returns the same body with exact consumption.","every header and validating body, every continuation","unbounded trees",[B+": Serialize for Body, Body::deserialize"])
p("C26","Decoded bodies validate","Whatever bytes Body::deserialize accepts under a header, the body it returns validates against that header; conversely a body validates exactly when some bytes decode to it.","every header, every byte string","adversarial input",[B+": Body::deserialize, Body::validate"])
p("C27","Truncated bodies are reported","Body::deserialize on a proper prefix of a serialized validating body yields Err(Read).","every header, body and cut","every cut point",[B+": Body::deserialize"])
p("C28","Body wire format","Every body is written exactly in the documented format (fixed bytes for bool/8-bit/floats, varints for wider integers, length-prefixed strings/binary/arrays/maps, bare tuples, index-prefixed enums, offset dates).","every body","unbounded trees; encoder and decoder could be wrong together",[B+": Serialize for Body",S])
p("C29","Typed data is readable through its header alone","Bytes written for a value of a Rust type decode, using Body::deserialize with that type's header, to the Body carrying the same data.","every type with a header and value","relates two decoders on all types",[B,HS,S])
p("C30","Header plus body messages form a readable stream","A sequence of messages, each a header followed by a body validating against it, reads back in order without any other framing.","every finite list of messages","unbounded history",[HS,HD,B])
p("C31","Re-encoding a decoded body is stable and never longer","If bytes decode to a body, serializing it gives at most as many bytes as were consumed, and these decode to the same body again.","every header and input","non-canonical inputs",[B])
p("C32","Where decoding can crash","Deserialization through serde of the supported types never panics, except for date arithmetic overflow in builds with overflow checks. Body::deserialize additionally aborts when an array header declares a length whose allocation is refused.","every type/header and every byte string","adversarial input",[D,B+": Header::Array","dlhn/src/date.rs"])
p("C33","Declared lengths do not drive memory requests in the serde decoder","No single read or allocation request made while deserializing through serde exceeds 4096 bytes up front, whatever length the input declares; the dynamic array decoder violates this.","every type, input and intermediate point","depends on all intermediate states",[D+": deserialize_byte_buf, deserialize_string",B+": Header::Array"])
p("C34","Big integers convert faithfully","Converting a big integer to the wrapper, serializing, deserializing and converting back gives the same integer; the bytes are minimal two's-complement (or unsigned) little-endian; wrappers of two integers are equal exactly when the integers are.","every integer","unbounded integers",["dlhn/src/big_int.rs","dlhn/src/big_uint.rs"])
p("C35","Wrapper types and format modules are interchangeable","For big integers, decimals and dates the wrapper and the format module write the same bytes; for big integers they also read every byte string alike. For decimals they disagree on some inputs.","every value, every byte string","two implementations compared on all inputs",["dlhn/src/format/*.rs","dlhn/src/big_int.rs","dlhn/src/big_uint.rs","dlhn/src/big_decimal.rs","dlhn/src/date.rs","dlhn/src/date_time.rs"])
p("C36","Decimals round-trip numerically and have one encoding per number","A decimal reads back as the same number, and two decimals have the same bytes exactly when they are numerically equal (scales within i64 after normalization).","every integer and scale","unbounded integers, all scales",["dlhn/src/big_decimal.rs","dlhn/src/format/big_decimal.rs"])
p("C37","Derived ordering of wrappers","Date ordering is chronological and DateTime ordering is chronological for values obtained from real times; ordering of BigInt/BigUint/BigDecimal wrappers is not numeric.","every pair","pairs",["dlhn/src/date.rs","dlhn/src/date_time.rs","dlhn/src/big_int.rs"])
p("C38","Dates round-trip and invalid dates are rejected on conversion","Every calendar date round-trips through both APIs; conversion to a calendar date succeeds exactly for real dates; decoding overflows only for the identified out-of-range inputs.","every date, every input","calendar and overflow edges",["dlhn/src/date.rs","dlhn/src/format/date.rs"])
p("C39","Times round-trip to the same instant","Every time in range round-trips to the same instant (in UTC). Conversion back never fails for such values; but for some decodable values it panics.","every instant and offset, every decoded pair","10^20 instants",["dlhn/src/date_time.rs","dlhn/src/format/date_time.rs"])
p("C40","Writer faults are reported and leave a prefix","With a writer that accepts any number of bytes per call, is interrupted or fails at any point, serialization returns Ok only if every byte was written, otherwise Err(Write), and what was written is a prefix of the full encoding.","every value and every writer behaviour","schedules of partial writes",[S+": write_all(...).or(Err(Error::Write))"])
p("C41","A torn write is detected on reading","If serialization of a value fails because the writer failed, deserializing what reached the writer gives Err(Read).","every value and every fault schedule","crash points",[S,D])
p("C42","Decoding does not depend on how the reader delivers bytes","For any reader that delivers the same bytes in any chunking with any interruptions, decoding gives the same result as from one slice; an I/O error at some point is reported as Err(Read) if decoding needs bytes beyond it.","every type, byte string, chunking and interruption schedule","schedules",[D,V+": decode_prefix",HD])
p("C43","Derived headers describe derived serialization","For a struct or enum deriving both Serialize and SerializeHeader the header describes the bytes, if no variant other than trailing ones is skipped and no field inside a variant is skipped; otherwise the header is wrong.","every struct/enum definition and value","ranges over programs",["dlhn_derive/src/lib.rs"])
p("C44","32-bit targets accept corrupted lengths","On 32-bit targets lengths of 2^32 and more are truncated, so a truncated or over-declared string or binary can be accepted; on 64-bit targets this cannot happen. A usize or isize that does not fit is an error, and Body arrays and maps count to the declared number on every target.","every declared length","platform dependent",[D+": deserialize_string, deserialize_byte_buf"])
p("C45","Booleans and options are strict","A boolean or an option tag decodes only from 0 or 1; any other byte is Err(Read).","every byte, every type and continuation","nested in every type",[D+": deserialize_bool, deserialize_option"])
p("C46","Floats are bit-exact","Every f32/f64 bit pattern, including NaN payloads and signed zero, is written little-endian and read back bit for bit.","every bit pattern","2^64 patterns",[S+": serialize_f32,f64",D+": deserialize_f32,f64"])
p("C47","Unsupported requests fail predictably","128-bit integers are rejected with an error in both directions; borrowed str/bytes, self-describing and ignored requests panic on any input.","every value and input","every nesting",[S,D+": todo!()"])
p("C48","Work is not bounded by input size","The claim that the number of decoded elements is at most the input size is false: for every n below 2^64 the encoding of n alone decodes to n unit elements; it holds when elements occupy at least one byte.","every element type, count","needs 2^64 elements",[D+": SeqDeserializer",B+": Header::Array"])
p("C49","Re-encoding never grows","Whatever bytes a type decodes from, serializing the decoded value takes at most as many bytes as were consumed, on 32-bit targets as well, where declared lengths are cut to 32 bits.","every target, type and every accepted byte string","non-canonical inputs of every type",[D,S])
p("C50","Decoding is idempotent through re-encoding","A value decoded from arbitrary bytes belongs to its type, serializes without error, and the bytes written decode to the same value; on 32-bit targets too, provided that, if a byte buffer is in the type, fewer than 2^32 bytes were consumed.","every target, type and accepted byte string","non-canonical inputs of every type",[D,S])
p("C51","Error kinds","A failing decode reports Err(Read), except that types containing a char may report CharSize, types containing an enum (and usize/isize on 32-bit targets) serde's own message.","every type and every byte string","adversarial input",[D])
p("C52","Header decoding memory is linear in the input","The vectors reserved while decoding a header, over the whole run and whether or not it succeeds, amount to at most 65535 * size_of(Header) / 2 bytes per input byte.","every byte string and stack depth","adversarial input",[HD+": Vec::with_capacity"])
p("C53","Decoded body size is linear in the input unless arrays have empty elements","A decoded body has at most (nodes of the header) * max(1, bytes consumed) nodes, if no array in the header has elements that occupy no bytes; an array of units has as many elements as declared in at most nine bytes.","every header and byte string","adversarial input",[B+": Header::Array"])
p("C54","A torn stream keeps its complete values","If values are written one after another and the writer fails, reading the bytes back gives exactly the values completed before the failure and then Err(Read).","every sequence of values, every fault schedule","crash points in sequences",[S,D])
p("C55","Recursive types have no header","SerializeHeader for a type that contains itself (through Vec or a map), or that uses such a type, overflows every stack; for every other set of types the header is written with no more nested derived impls than there are types, and is that of the type with all names resolved.","every program of structs and enums, every stack size","ranges over programs; a test would crash",["dlhn_derive/src/lib.rs",HS])
p("C56","Typed and dynamic writers are interchangeable","Serializing a value of a type and serializing the Body with the same data make the same write_all calls, failures included; so typed code reads what dynamic code wrote. (HashMap: when it iterates in key order.)","every type with a header, every value","relates two encoders on all types",[B,S,"dlhn_derive/src/lib.rs"])
p("C57","Changing the width of an integer field","A number written as one of u16/u32/u64 (or i16/i32/i64) is read back as itself with another width exactly when it takes at most 7 bits per byte of the narrower one (plus 7); otherwise a different number is returned without error. The bytes of both widths agree under the same condition.","every value, every pair of widths, every continuation","silent misreads sit at class boundaries of each pair of widths",[V,S,D])
p("C58","Types sharing a wire format","Byte buffers, strings, Vec<u8> and the bytes of big integers are written alike; a byte buffer and a Vec<u8> read the same from any input; a string is read exactly when the buffer is and its bytes are UTF-8. A map is written as a vector of (key, value). An Option is written as the two-variant enum and reads as it; the converse fails.","every content and every input","relates two decoders on all inputs",[S,D])
p("C59","Fields and variants added at the end","A struct read with a type that lacks its last fields gives the shared fields and leaves the rest unread; the longer type never accepts the shorter value (the added field being one that occupies bytes), even for an Option. Nested in another value the unread bytes are misread. Variants appended to an enum do not disturb old values; an unknown variant is refused with serde's message.","every field list, every value, every continuation","ranges over pairs of types",[D+": deserialize_struct, deserialize_enum",S])
p("C60","Headers are self-delimiting","Two headers written at the start of the same bytes are equal, if member counts are at most 65535; otherwise not.","every pair of headers and continuations","universal over pairs",[HS])
p("C61","Encoded size range from the type","From the type alone the least and greatest encoded size are computed: every value lies within, both ends are reached (or size is limited only by the address space), types without values are recognised, and any input shorter than the least size is refused.","every type, every value, every input","ranges over all types, with exact extremes",[S,D])
p("C62","Recursive types decode without a depth limit","A value of user types that refer to each other reads back, and truncation is reported, whenever the stack has room for as many nested Deserialize impls as the value nests items; with less room the stack overflows (nothing limits the depth: n bytes overflow a stack for n calls). On any input the result is that of the type with its names resolved to that depth, or an overflow. Types that are not recursive need a fixed depth.","every set of user types, every value, every input, every stack depth","nesting depth is unbounded; a test would crash",[D+": deserialize_struct, deserialize_option, deserialize_enum"])
p("C63","Equality of bodies","== on Body compares floats as numbers: two bodies are equal exactly when neither contains a NaN and they differ at most in the sign of zeros. So a body read back equals the written one iff it contains no NaN, and equal bodies have the same headers and encoded length, but not always the same bytes.","every pair of bodies","all float bit patterns at every position",[B+": derive(PartialEq) on Body"])
p("C64","Size of dates and times","A calendar date takes 2 to 5 bytes, an instant 2 to 11; the exact size is given by the ranges of year, ordinal, seconds and nanoseconds (e.g. one byte for the years 1936 to 2063).","every calendar date, every instant of the years -9999 to 9999","all boundaries of the size classes",["dlhn/src/date.rs: Serialize for Date", "dlhn/src/format/date_time.rs: serialize"])
p("C65","Varint buffers","encode_prefix_varint never indexes outside its fixed-size buffer: whatever the buffer held, it puts the encoding at its start, leaves the rest alone and returns the encoding's length, so the slice the callers take is the encoding. No smaller buffer would do.","every value of every width, every buffer content","all values times all buffer contents",[V+": encode_prefix_varint, encode_prefix_varint_vec", S+": serialize_u16..u64"])
p("C66","Derived types read back","For a type deriving Serialize and Deserialize whose skip attributes agree, the bytes written read back as the value with defaults in the skipped fields, every truncation is an error, and only unimplemented borrowed strings, dates and times can panic. A value of a skipped variant fails to write with a message. Where attributes disagree, or a skipped variant precedes another, another value is read silently.","every type built from the modelled leaves, every value, every input","types are an infinite family; tests derive a handful",[D+": whole file", S+": whole file", "dlhn_derive/src/lib.rs"])
p("C67","Which inputs decode, and to what","On 64 bit targets an input decodes to a value of a type, leaving a rest, exactly if it is a code of the value followed by the rest, for an independent description of the codes (varints of any admissible length, any entry order and repeated keys in maps, chars with trailing text, dates within the checked range, struct impls passing any list of field names); the same for bodies of a header. No input has two readings.","every type, every header, every input","an equivalence over all inputs; tests only see samples of either side",[D+": whole file", B+": Body::deserialize"])
p("C68","Keys that are not strings","The serializer for map keys does not declare itself binary, unlike Serializer and Deserializer. A key whose impl asks (std's addresses) is therefore written as text but read as octets: reading gives other keys without an error and ends at the wrong place, for every address and map. As a value the same type reads back. Keys of any other type cannot be written (C16) but are read.","every address, every map, every key type","wrong data without an error, on all maps of a class",[S+": MapKeySerializer, is_human_readable", D+": is_human_readable, MapDeserializer"])
p("C69","Which inputs are rejected, and how","On 64 bit targets reading a type stops with a given error or crash exactly on the inputs an independent description assigns to it: the first part that is not a code of its type decides. Read errors are inputs that end too early, booleans above one, text that is not UTF-8; an empty char is a char size error; an unknown variant a message; a date out of range a crash with overflow checks only; unsupported types an error or todo!() once reached; a struct impl passing names other than its fields a message (repeated or left out, unless optional) or todo!() (unknown). The same for bodies, where vectors without room crash, and for headers on every target: an unassigned code is InvalidData, a short input an I/O error. Every input is accepted or rejected, in one way.","every type (supported or not), every header, every input","an equivalence over all inputs; with C67 it fixes the outcome of every read",[D+": whole file", B+": Body::deserialize", HD+": deserialize_header"])
p("C70","What is written, and how writing ends","The bytes written for a value and the end of writing (success, or which error or panic) are the ones an independent description in plain arithmetic gives, for every value an impl can hand to the serializer: numbers by width, text and bytes after their length, announced lengths as announced, members in order, nothing for names, and on failure everything before the first 128 bit number, non-string key, part whose impl returns an error of its own, or panicking part. The same for bodies, where only dates can fail: out of range they panic with overflow checks, between the year and the day, and wrap without. Values of supported types never fail, and of all inputs accepted as a value the one written is the shortest.","every value of the data model whose numbers fit their Rust types; every body; every build setting","an equivalence over all values, failing ones included",[S+": whole file", B+": impl Serialize for Body", "dlhn/src/date.rs: impl Serialize"])
p("C71","What reading does to every input, on 32 bit targets too","The outcome of reading any supported or unsupported type, and any body of a header, is the one an independent description gives for that input: the value and what is left, the error, or the crash. The description covers targets where a length of the input does not fit a usize: vectors, maps and big numbers lose the upper bits of their length, strings compare the truncated length with the bytes actually there, byte buffers come in whole blocks of 4096 bytes, usize and isize are refused, and arrays and maps of bodies are read to the full count.","every type of the data model or header, every input, both pointer widths and build settings","an equivalence over all inputs; lengths of 2^32 and more cannot be produced by a test in memory",[D+": whole file", B+": Body::deserialize", "dlhn/src/big_uint.rs: impl Deserialize", "dlhn/src/big_decimal.rs: impl Deserialize"])
p("C72","Documents move from 64 to 32 bit targets","Any input of less than 4 GiB that a 64 bit target decodes, in shortest form or not, decodes to the same value with the same rest on a 32 bit target built with the same overflow checks, for types without usize, isize and vectors of members that take no bytes; derived types likewise (what they skip does not matter), bodies when their vectors fit the memory. What derived types write does not depend on the platform. The converse is false, and so is the statement for usize and for vectors of units.","every such type, header, input and pair of targets","quantifies over all documents and two targets at once",[D+": deserialize_seq, deserialize_map, deserialize_string, deserialize_byte_buf", B+": Body::deserialize"])
p("C73","What the format modules read","For every input the outcome of dlhn::format::{big_uint,big_int,big_decimal,date,date_time}::deserialize is the one an independent description gives: the number the bytes stand for; digits and a scale, the scale only if the digits are not zero as a number; a date of the calendar, Message for any other year and day, a panic where the offsets overflow; an instant with whole seconds carried over from the nanoseconds, Message for seconds outside the years -9999 to 9999, a panic if only the nanoseconds leave them.","every input, both pointer widths and build settings","an equivalence over all inputs",["dlhn/src/format/big_uint.rs", "dlhn/src/format/big_int.rs", "dlhn/src/format/big_decimal.rs", "dlhn/src/format/date.rs", "dlhn/src/format/date_time.rs"])
p("C74","Failures that more input cannot change","On 64 bit targets, if reading a value or body crashes or fails with an error other than Read, it does so with anything appended to the input. A header that fails with UnexpectedEof is the start of some header, and one that fails with InvalidData is not. Err(Read) in contrast does not tell whether more input would help, and on 32 bit targets CharSize is not final.","every type, header, input and continuation","quantifies over all continuations of all inputs",[D+": whole file", B+": Body::deserialize", HD+": deserialize_header"])
p("C75","Nesting of calls on headers and bodies","Reading a body nests calls no deeper than its header, for any input, so a stack that sufficed to read the header suffices for every body of it. With less room reading either gives the same result or overflows, and for a written body it overflows exactly if the body has more levels than there is room. Writing a body or header needs as many nested calls as it has levels; with less, a prefix of its bytes is written before the overflow. Validation needs no more than the smaller of the two depths, matching or not, and all levels of a matching body.","every header, body, input and amount of stack","quantifies over all nestings and all stack sizes",[B+": Body::deserialize, impl Serialize for Body, Body::validate", HS+": impl SerializeHeader", HD+": deserialize_header"])
p("C76","Memory granted over a whole read","What a read allocates up front (Vec::with_capacity, vec![0; n]) adds up, on 64 bit targets, to at most the bytes it read plus one buffer of 4096 for any typed value, whatever the lengths in the input claim; on 32 bit targets to 4096 per byte. For a body whose header has no arrays of elements that take no bytes, a successful read gets at most a constant plus a constant times the bytes read, both computed from the header; a failed read in addition one largest granted request per nested array, which is reached with nine bytes of input per level. Arrays of units are granted any amount for nine bytes.","every type, header, input, size of Body, memory limit","sums over all allocations of all runs",[D+": deserialize_byte_buf", B+": Body::deserialize"])
p("C77","Changes of a type that keep old data readable","Data written for a type reads back, as the correspondingly converted value and with nothing more consumed, after any chain of the following changes anywhere inside the type: bool to u8 or Option<()>, char to String to byte buffer, byte buffer to and from Vec<u8>, to and from big integers, dates to pairs of numbers, usize to u64, renamed or regrouped members (struct, tuple, newtype, nesting of tuples), Option to a two variant enum, map to list of pairs, variants that change shape or content in these ways, and variants appended. The same holds for headers and bodies.","every chain of changes, every value, every following input","quantifies over all derivations of compatible types",[S+": impl Serializer", D+": impl Deserializer", B+": Body::deserialize"])
p("C78","What derived types read from every input","The outcome of reading a type with derived impls (structs and enums of any style, skip attributes, the library's big numbers and dates, the format modules, Option, Vec, string keyed maps, tuples) is for every input the one an independent description gives: fields in order, a skipped one taking its default without reading, variants numbered without the skipped ones, other numbers a message, the first part that fails deciding, and of entries with one key the last. Renaming fields or changing the style of a struct or variant changes no outcome.","every such type, every choice of defaults, every input, both pointer widths and build settings","an equivalence over all inputs and all derivable types",[D+": whole file", "dlhn/src/format", "dlhn_derive/src/lib.rs"])
p("C79","Inputs that end too early","On 64 bit targets, among the inputs rejected with Err(Read), those that decode once something is appended are exactly the ones an independent description gives: the input ends inside a number, a length, the announced bytes, a character that still fits in its text, or a number of a variant, count or date that can still become an allowed one, after parts that are complete and before parts that have any code at all. All other Err(Read) inputs stay undecodable whatever follows. The same for bodies of a header.","every type of the data model, every header, every input and continuation","quantifies over all inputs and all their continuations",[D+": whole file", B+": Body::deserialize"])
p("C80","What derived types write, and how writing ends","Writing any value of a type deriving Serialize writes exactly the bytes, and ends in exactly the way, that an independent description gives: the fields in order without the skipped ones and without those the function named in skip_serializing_if leaves out (a newtype variant does not ask it), variants numbered among all variants, a value of a skipped variant refused with Message after what precedes it, big numbers in their shortest form, decimals without trailing zeros (a panic or a wrapped scale if that leaves the i64 range), dates that panic or wrap out of range. What is in skipped fields does not matter.","every type built from the modelled leaves, every value, every answer of skip_serializing_if, every build setting","types are an infinite family; failing writes included",[S+": whole file", "dlhn/src/format/big_decimal.rs", "dlhn/src/date.rs", "dlhn_derive/src/lib.rs"])
p("C81","Reading stops at the last byte of a value","Reading a value, header or body makes no call to the reader after the one that delivered its last byte, so it returns even if the next call would fail or block; what later calls would do stays as it was. A value without bytes needs no call.","every decoder, every input it takes a value from, every chunking with interruptions, everything the reader might do later, every build setting","one cannot try all chunkings and futures of a connection",[D+": whole file", HD+": whole file", B+":79-158"])
p("C82","Structs with flattened fields are written but cannot be read back","A struct with serde(flatten) is written without an error and without a count: for each named value the length of the name, the name and the value; a flattened number, text or sequence is refused with Message. Reading it back never succeeds: the length of the first name is taken for the number of entries, so it ends in the todo!() of deserialize_any (always if the name starts with an ASCII letter) or in Err(Read). Whatever the input, no field gets its value from it.","every struct of plain and flattened fields, every value, every continuation, every build setting","absence of any readable value",[S+":235-240,336-357", D+":62-67,338-344,369-374,420-455"])
p("C83","Overflow checks only add panics","Reading any type, body or derived type in a build with overflow checks (debug) either panics with an arithmetic overflow or does exactly what a build without them (release) does: same value, same error or panic, same input left over. For headers the two builds never differ. Writing: either the checked build panics with an overflow after handing over a first part of what the other build hands over, or both hand over the same bytes and end in the same way.","every type, header, body, value, every behaviour of the reader and of the writer, every platform","both builds would have to be run side by side on every input",["dlhn/src/date.rs:8-80", "dlhn/src/format/date.rs", "dlhn/src/format/big_decimal.rs", S+": whole file", D+": whole file", HD+": whole file", B+":37-158"])
p("C84","Types of the standard library","Result, Bound, ranges, arrays, tuples, sequences and ordered sets, NonZero integers, Duration, SystemTime, CString, OsString, PathBuf and the network addresses, nested in any way, also as values of maps and in fields of derived structs and enums, through serde's own impls: reading one ends as reading a plain wire type does (Duration: a u64 and a u32; Result: an enum of two; a socket address: an enum of octets and port; and so on), the wire value then standing for exactly one value or being refused with Message (zero for NonZero, an overflowing Duration or SystemTime, a nul in a CString; in a map also when a later entry replaces the value). Writing writes what the wire type's value writes, and the value comes back; cut short anywhere, on any target, it gives Err(Read). Lost on the way: flow information and scope of an IPv6 socket address, the mark on a used-up inclusive range. Times before 1970 and paths that are not UTF-8 are refused and write nothing.","every such type, value and input","Combinations of generic types and refusals in the middle of nested values cannot be enumerated",[(S,171,265),(D,271,387),(D,494,547)])
p("C85","Calls on the reader and the writer","Reading anything from any input calls the reader (read_exact, take + read_to_end) at most twice for each byte consumed; a read that fails or panics makes at most one call more than two for each byte of the input, whatever lengths the input declares. A Vec<u8> or a big integer of n bytes takes a call for each byte, a ByteBuf with the same bytes on the wire at most n/4096 + 3. Writing a value or a header calls write_all at most twice for each byte written, also when it fails half way.","every type, body, header, derived, recursive or standard library type, every input and every value","Tests do not count calls, and cannot try every declared length",[(D,69,269),(S,57,149),(V,18,22),(HD,9,78),(HS,255,305)])
p("C86","All kinds of types are read equally safely","Derived types with any attributes, recursive types and types of the standard library share the guarantees of plain types: no buffer larger than 4096 bytes is requested up front; on 64-bit targets a value is decided by exactly the bytes consumed, every proper prefix of them gives Err(Read), and a reader that fails in the middle, however it chunks the data, gives Err(Read) and never a value. A derived type fails only with Read or a message, the others also with CharSize. A standard library type panics only on a date inside it, with overflow checks.","every type of each kind, every attribute, input, chunking and fault","Tests read valid input from slices",[(D,69,382)])
p("C87","What was read of any type can be written again","On a 64-bit target, or on a 32-bit one from fewer than 2^32 bytes, let a value of a derived type (without skip attributes that differ between the two directions, late skipped variants or a BigDecimal), of a recursive type or of a standard library type have been read from any bytes, valid in any non-canonical way the reader tolerates. Serializing it then succeeds, the output is read back as the same value and leaves whatever follows untouched, and it is no longer than the bytes that were consumed, unless a DateTime, Duration or SystemTime is in it: their surplus nanoseconds move into the seconds, which may take one byte more. A BigDecimal is a true exception: one that was read may panic the serializer or be written as another one, and longer.","all targets, types and byte strings","re-encoding data from other writers (services that normalise, proxies, compaction) needs inputs no serializer of this crate emits; which types may grow or fail is not visible from round-trip tests",[(D,69,382),(S,31,340),("dlhn/src/format/big_decimal.rs",11,57),("dlhn/src/format/date_time.rs",9,60)])
p("C88", "Aliases of fields make a struct unreadable or change nothing",
  "A struct with serde(alias) on a field is read exactly as the struct without aliases if the generated code announces only the names of the fields. If it announces the aliases too, reading stops with an error after the first field that has one, whatever follows, so no input is ever accepted: every value of the type is written without an error and refused with a message when read back. Structs without aliases are read the same way in both cases.",
  "every struct, every set of aliases without repeated names, every input",
  "needs all inputs and all placements of aliases; the crate's tests have no alias",
  [D+": deserialize_struct", (D,457,492)])
p("C89", "Memory asked for while containers grow is linear in the input",
  "Vectors, texts, byte buffers and maps grow while they are filled. This changes no outcome unless the system refuses a request, and then the program is stopped by that refusal. All that reading a typed value asks for, counting every buffer that is outgrown, is at most a constant of the type times the bytes read, and 4096 bytes more if it fails; so with memory in that proportion to the input no request is refused. For a body the same holds of what is granted, with the fixed part of its header and the requests of its unfinished arrays added. No less is asked for than the finished value or body occupies, so that is bounded too. The one exception are members that take memory but no input, such as structs whose fields are all skipped: at most nine bytes of input then bring down any program.",
  "all targets, types, headers and inputs, every allocator that serves texts and maps within the stated averages",
  "amortised growth has to be summed over all sequences of inputs; tests of a few sizes see neither the constant nor the refusals",
  [(D,210,269),(D,390,455),(B,78,158)])

p("C90", "Types with conversions of their own",
  "A type that serde's from, try_from, into, transparent, with, serialize_with or deserialize_with route through another type, in any nesting of options, sequences, tuples, maps, structs and enums over library types, is read and written as that other type: every input ends as reading the wire type does, with the conversions applied, or with Message where a conversion refuses; conversions add no panic and no other error, and those that cannot fail refuse no input the wire type takes. What is written comes back as the conversions make it, is readable by whoever knows the wire type alone, and cut short is Read. A conversion that fails while writing leaves nothing of its value in the output. Whether the value comes back the same is up to the conversions.",
  "all targets, types, conversion functions, user types, values and inputs",
  "conversions are arbitrary user functions; tests try single ones at single places",
  [S+": serialize_newtype_struct",D+": deserialize_newtype_struct",(S,18,22),(D,19,23),(D,346,356)])

p("C91", "Untagged and internally tagged enums and borrowed text are written but cannot be read",
  "Untagged and internally tagged enums, dynamic values, &str and &[u8] can be written, but reading them makes a request that is not implemented: on every input a type containing them is read as one that asks for a dynamic value there, so a successful read has met none. What was written of any nesting of options, sequences, tuples, maps, structs and enums panics when read, whatever follows and even if writing it failed half-way, as soon as the value has one of them anywhere, and comes back if it has none. An internally tagged variant is written as its name followed by its fields, or as one more entry of its map, and is refused with Message for other payloads; untagged variants are not distinguishable.",
  "all targets, types, values and inputs",
  "the panic depends on where in the value the enum is; tests of empty collections and None pass",
  [(D,62,67),(D,203,208),(D,239,244),S+": serialize_struct",S+": serialize_map"])

p("C92", "The order in which hash sets and hash maps are iterated does not matter",
  "Take a value of types of the standard library with hash sets and hash maps (or ordered ones) anywhere in it, and any other order of the members and entries, at any depth. Both are written without error as the same number of bytes, though not the same bytes, and both are read back as the same value; cut short anywhere, either gives Err(Read). Members of a set that are equal without being identical are the exception: of these the first one written is kept.",
  "every such type, value, order and cut", "the orders of nested containers multiply, and a test sees the one its hasher gives",
  [S+": serialize_seq", S+": serialize_map", D+": deserialize_seq", D+": deserialize_map, MapDeserializer"])
p("C93","Types with conversions, aliases or unreadable parts are read as safely as plain ones","Let a type have conversions of its own (from, try_from, into, with; any functions that end), aliased fields, or parts that cannot be read (untagged and internally tagged enums, borrowed text). Reading it asks for no buffer of more than 4096 bytes up front, makes at most two calls of the reader for each byte consumed and one more than two for each byte there if it does not deliver a value, and reports only Read, a message, or CharSize. On a 64-bit target the value is decided by the bytes consumed and by nothing shorter, and a reader that fails is treated as one that ends there. With conversions, the only panic is a date's overflow in a build with overflow checks. What was read of a type with conversions can be written again, reads back as the same value and takes no more bytes (unless Durations or SystemTimes are in it), if writing undoes what reading did; without that, a value that was read may be unwritable, or drift.","all targets, types, conversions, inputs and ways a reader may deliver them","the guarantees quantify over every user function and every input; a test knows a few of each",
  [D+": deserialize_struct, MapAccess for StructDeserializer", D+": deserialize_any", D+": deserialize_string", D+": deserialize_byte_buf", S+": Error::custom", D+": Error::custom"])
p("C94","The memory asked for per byte does not add up over nesting, and recursive types have one bound for every depth","Reading a value asks for at most P bytes per byte of input, where P is the largest of what the parts of its type take (a vector: twelve times the size of an element; a text: sixteen) and not their sum: vectors nested n deep need no more per byte than two deep. If the type always takes input, one byte of the input remains unspent. For user types that refer to each other, through Box, Option, Vec, maps, tuples and enums, the same bound holds with one P for every depth of recursion, plus the boxes that come before the first byte. If that much memory can be had, reading gives what it gives without counting memory; otherwise it can only fail by a refused request.","all readers' inputs, all types and families of recursive types, all depths, all layouts and allocators that give nothing to what takes no input, all targets","An input that makes memory grow with depth times length needs a type and an input found together; tests fix both and do not measure allocation.",[D+": deserialize_seq", D+": deserialize_map", D+": deserialize_option", D+": deserialize_enum"])

p("C95","derive(SerializeHeader) sees only types, order and skipping","If two types differ only in the names of fields and variants, in whether fields are named or positional, and in attributes other than skip, skip_serializing and skip_serializing_if, then derive(SerializeHeader) gives both the same header or neither compiles; also for types that refer to each other. Their values are written with the same calls on the writer (as long as nothing is left out on a condition), so that the header of one and the data of the other form a readable message. Attributes that change what is written are not seen either: with flatten, untagged, tag or into, a header is derived that does not describe the data, and reading by it can deliver another value without an error.","all pairs of types that differ in labels only; all values of both; the four attributes are witnesses","Tests compare a handful of structs with expected bytes; that no name or attribute matters is a statement about all of them, and the silent misreading needs the right value to be seen.",["dlhn_derive/src/lib.rs: derive_serialize_header", "dlhn_derive/src/lib.rs: is_skip_field", "dlhn_derive/src/lib.rs: has_skip_serializing_if", S+": serialize_struct"])

p("C96","The memory that standard library types ask for does not add up over nesting","Reading a value whose type is made of standard library types (Option, Vec, BTreeSet, arrays, tuples, ranges, Bound, Result, CString, OsString, PathBuf, maps, times, addresses, and user structs and enums of them) asks for at most P bytes per byte of input read, where P is the largest of what the parts take and not their sum, plus two bytes for every CString that is always there. If the type always takes input, one byte of the input remains unspent. If that much memory can be had, reading gives what it gives without counting memory; otherwise it can only fail by a refused request. A set of members that ask for nothing themselves asks for exactly what the members it keeps take: members read again are not paid for again.","all inputs, all such types however nested, all layouts and allocators that give nothing to what takes no input, all targets","An input that makes memory grow with depth times length needs a type and an input found together; tests fix both and do not measure allocation.",[D+": deserialize_seq", D+": deserialize_byte_buf", D+": deserialize_map", D+": deserialize_enum"])

p("C97","What a value holds was asked for, and is bounded by the input","When reading a value of a standard library type or of a family of recursive user types succeeds, the memory that the value occupies outside itself (slots of vectors, nodes of maps and sets for the entries kept, texts, boxes of recursive items at every depth) is no more than what was asked for while reading. With the bounds of C94 and C96 it is at most a constant of the type per byte of input, the same at every depth.","all inputs, all such types and families, all depths, all layouts and allocators","The gap between memory counted and memory held cannot be observed by tests of values; a request missing from the account shows only for the container that forgot it.",[D+": deserialize_seq", D+": deserialize_map", D+": deserialize_byte_buf", D+": deserialize_struct"])

p("C98","Memory of headers, with their boxes","Reading a header asks, on success, for exactly the size of one Header for each node but the outermost: the slots of tuples and enums and the boxes of optionals, arrays and maps, and nothing else. In any case, also when the input is invalid or ends early, it asks for at most 65535 Headers for every four bytes of input; inputs of every length reach that factor. With that much memory no request is refused, and otherwise the boxes change no outcome.","all inputs, all stack depths, all sizes of Header, both pointer widths, all memory limits","The factor comes from a count in the input that is believed before any member is read; tests feed short valid headers only and never look at what is allocated.",[HD+": deserialize_header"])
p("C99","Memory of a message is bounded by the product of header and body","When a header and then a body of that header are read, the header asks for memory in proportion to its own bytes, and the body for at most a constant times the bytes of the header times one more than the bytes of the body, provided no array of the header has members that take no input. The product cannot be replaced by a sum: an array of pairs nested w deep takes 3 w + 2 bytes of header and asks for 2 w + 1 bodies for every byte of body.","all messages, all headers, all layouts and allocators; all depths and lengths of the family","The bound multiplies two lengths that tests keep small; the family that reaches it grows both.",[HD+": deserialize_header", B+": Body::deserialize"])
p("C100","Memory of derived types with skipped fields","Reading a derived type, with skipped fields and variants and with the big number fields of the format modules, asks in total for memory linear in the bytes read, counting every buffer that is outgrown, unless a vector has members that take memory but no input; what skipped fields are made of does not matter. What a complete value holds, skipped fields and digits of big numbers apart, was asked for and is bounded likewise. Memory in that proportion is enough: reading then ends as if memory were no matter. A vector of structs whose fields are all skipped is such an exception: at most nine bytes bring down the program.","all derived types with skip attributes, all inputs, all layouts and allocators","The bound must hold for every combination of fields and attributes; the exception shows only with an absurd count.",[D+": deserialize_seq", D+": deserialize_struct", "dlhn/src/format/big_uint.rs: visit_seq", "dlhn/src/format/big_decimal.rs: visit_seq"])
out = os.path.join(os.path.dirname(__file__), "..", "properties.jsonl")
with open(out,"w") as f:
    for x in P: f.write(json.dumps(x)+"\n")
print(len(P))
