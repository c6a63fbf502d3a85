#!/bin/sh
# Extract the model to OCaml, run it on the project's own tests, and compare.
# Needs a built /verif/rocq.  Works in a scratch directory; nothing of this is
# part of the build or of any proof.
set -e
here=$(cd "$(dirname "$0")" && pwd)
work=${1:-$(mktemp -d)}
cp "$here"/*.py "$work"
cp "$here/extract.txt" "$work/ex.v"
cp "$here/driver_ml.txt" "$work/drv.ml"
cp "$here/lexdriver_ml.txt" "$work/lexdrv.ml"
cd "$work"
coqc -Q "$here/../rocq/theories" Verif ex.v
python3 unicode_tables.py > uni.ml
for d in drv lexdrv; do
  ocamlfind ocamlopt -w -a -package str,unix -linkpkg uni.ml model.mli model.ml $d.ml -o $d
done
echo "tests of the lexer (src/lexer/tests.rs):"
python3 tokens.py
echo "whole ledgers (test-cases/):"
python3 ledgers.py
