"""What the mutants led to: theorems tightened, and why some break no claim."""
TIGHTENED = {
 'grammar-regex-as-literal': ['C19_productions'],
 'support-precedence-equal': ['C48_kinds_partial'],
 'release-counter-i16': ['C58_counter', 'C58_library_partial'],
 'lexgrammar-eof-lower': ['C16_convert_characterised', 'C16_own_index_partial'],
 'util-add-swapped': ['C44_never'],
 'util-extends-never': ['C44_never'],
 'print-stack-reversed': ['C95_stack'],
 'tslex-eof-kind': ['C42_lexers_agree_partial', 'C42_any_text_partial', 'C42_reads_partial'],
}
# Edits that turned out not to change what the claim says.
NOTES = {
 'lexgen-no-space': 'no claim broken: the codes are taken modulo 256 and the ranges cover every residue many times',
 'tsparse-next-past-end': 'no claim broken: only EOF ends the tokens, and EOF is never shifted',
 'table-take-twice': 'no claim broken: no state is taken twice (C25_merge_returns)',
}
