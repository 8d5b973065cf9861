{
 "C01": "Grammar.v is the declarative grammar; iff.",
 "C03": "The property as stated is false of the code: C03_no_panic_refuted gives a document on which parse_str panics. The partial theorem covers all documents without \"<<-\"; C03_panic_cause characterises the cause. C89 characterises exactly the documents that panic.",
 "C12": "False as stated (some contents panic). The partial theorem gives the exact value or panic for every content.",
 "C24": "Two sub-claims are false of the code (line_comment and //; comment on the last line without newline), proved as _refuted; the others are proved.",
 "C26": "False as stated: the code accepts [,] . The partial theorem is the exact set of accepted texts.",
 "C16": "False as stated: the smallest value of each signed type panics with overflow checks (n.abs()); all other values are proved to round trip.",
 "C17": "False as stated (the _refuted theorems); the exact rule for floats is C96; the _partial theorems: symmetry for all numbers, exact domain of reflexivity, integer equality is equality of values.",
 "C14": "\"-0\" is rejected by unsigned types (Rust's FromStr rejects any minus sign); the statement says so.",
 "C30": "False as stated (C30_get_refuted: a block whose first label is new and which has more labels loses them). C30_append_get_partial gives the exact effect of every append on every lookup for consistently written labels.",
 "C31": "False as stated (non-adjacent runs of one type overwrite each other). The partial theorem: with adjacent runs, new = appending one by one.",
 "C32": "Counting and iterators agree for all collections (proved); reachability by get is false when a quoted and an identifier label have the same text (refuted), proved otherwise.",
 "C34": "False as stated in both directions of the value; the partial theorem: the value is always 0 when present, no false negatives, exact for unlabelled blocks.",
 "C36": "The Borrow contract is false (String(\"x\") and Identifier(x) hash and borrow alike but differ); the partial theorems prove the other half.",
 "C38": "The second half is false of the code: literals above i64::MAX are rejected for u64, so are all 128-bit targets' larger values (C38_accepts_refuted). Exactness holds for all; acceptance is proved for literals in the i64 range. C86_integer_errors says exactly which error each literal gives.",
 "C40": "False as stated: the code panics (assert). The partial theorem: such a body is never accepted. C88_body_first_problem states the exact outcome.",
 "C41": "False as stated: a quoted or expression key panics. The partial theorem gives the result for identifier-keyed objects exactly. C88_object_first_problem states the exact outcome for all objects.",
 "C44": "False as stated: a quoted string is always Owned and never becomes &str. The partial theorems describe String targets.",
 "C45": "False as stated: any labelled block panics, for every target. The partial theorem covers unlabelled blocks.",
 "C63": "False as stated: blocks of one type that are not adjacent overwrite each other, and newtype, tuple and struct targets drop surplus blocks (exactly: C95). Proved for adjacent blocks.",
 "C47": "For values in which nothing was merged before (everything from_str(_, None) returns) the property is proved in full. For arbitrary values it is false: a map that is already a table is not looked into (C47_inside_table_refuted); C47_tidy_partial gives the exact invariant needed.",
 "C49": "False as stated: blocks with equal labels are silently overwritten, also end to end through from_str with MergeBehaviour::Error (C49_from_str_refuted). The partial theorem says what happens: the last block wins.",
 "C50": "See the _refuted theorems for the sub-claims that are false; the others are proved for all values.",
 "C52": "False as stated: every method panics on null, which from_str can return (C52_reachable_refuted). Proved total, with the right answers, on values without null; the exact outcome on every value is C100.",
 "C53": "False as stated: TakeFirst and TakeLast panic (unimplemented!) on every document that parses. Proved for MergeBehaviour::Error and for None.",
 "C54": "The Borrow contract is false for Key; the partial theorem proves the other halves.",
 "C58": "On strings the macro's loop is proved to be the function used by the parsers and to find the earliest match; an error iff no match at any character. Refuted: the end of the input is not tried (strings), and on byte slices a failing search panics instead of returning an error (C58_bytes_refuted, C58_end_refuted).",
 "C81": "Refuted in part: whole-valued floats (1.0), infinities and NaN are classified as integers. The rest is proved for both formats; Rust's Display of floats is an explicit hypothesis (ShowsFinite).",
 "C82": "Refuted in part: object keys break the Borrow contract (an identifier and a computed key with the same text borrow alike but differ).",
 "C92": "Proved as stated. C92_f32_rounds_twice: a text for which the result is not the nearest f32. The sign of an integer zero is lost.",
 "C75": "Proved as stated. Two witnesses show what the condition is about: a parsed document that differs from itself, and three documents on which equality is not transitive.",
 "C76": "Proved as stated, with the exact condition for an index to equal itself; C76_big_literal_differs_from_itself shows that the condition matters.",
 "C104": "A finding: value::from_str is exponential in the nesting depth on texts it rejects (C104_doubling, C104_unclosed, C104_no_bound)."
}