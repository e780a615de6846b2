# Comparing the model with the golden tests of the repository

These scripts prove nothing; they guard against transcription mistakes in the model.

`run_model.py FILE.xsd...` translates schemas to the XML trees of `Xml.v`, evaluates `parse` and
`generate_rs_file` with `vm_compute` and writes the generated text to `/tmp/xsd-validation`.
`compare.py` compares the tokens with `/repo/xsd-parser/tests/*/expected.rs`, leaving out the
`Validate` implementations (the golden files do not have them) and trailing commas.

    mkdir -p /tmp/xsd-validation
    python3 run_model.py /repo/xsd-parser/tests/*/input.xsd
    python3 compare.py

15 of the 19 golden tests give the same tokens.  The other four (`extension_base_two_files`,
`rename_only_where_needed`, `tuple_with_integer`, `tuple_with_vec`) are marked `#[ignore]` in the
repository.
