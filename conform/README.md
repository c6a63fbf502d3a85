# The model on the project's own tests

`run.sh` extracts the model to OCaml (`extract.txt`), compiles it with small
drivers, and compares what it gives with what the project's tests expect.

* `ledgers.py`: the 225 ledgers of `/repo/test-cases`, each parsed with its
  includes by `read_with_includes`, `parser_new` and `parse`.  Directives,
  options, plugins, and the number of errors are compared with the expected
  result next to each ledger, in the way `/repo/tests/helpers/mod.rs` does.
  All 225 agree.
* `tokens.py`: the 43 tests of `/repo/src/lexer/tests.rs` which give their text
  as a literal.  All 43 agree.

The tests of `/repo/src/types/tests.rs` and `/repo/src/parsers/tests.rs` are in
`rocq/theories/RepoTests.v`, computed by Coq.

These are tests of the model against the authors' expectations.  They are not
proofs, and no theorem rests on them.
