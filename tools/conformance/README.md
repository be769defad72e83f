Runs the model on the repository's own sample projects and compares the outcome with what the
repository's own tests expect.  Nothing here is part of the proofs or of the build.

    mkdir /tmp/conf && cp tools/conformance/* /tmp/conf && cd /tmp/conf
    cp driver.txt main.ml; cp extract.txt Ext.v && coqc -R /verif/rocq/theories Verif Ext.v   # writes model.ml
    python3 gen.py                                                      # writes data.ml from /repo
    python3 patch.py; rm -f model.mli; ulimit -s unlimited
    ocamlfind ocamlopt -package unix -linkpkg model.ml data.ml main.ml -o run
    ./run red 400        # also: nored, replies, saves, paths, reds, ids, sims, errs

`patch.py` replaces three functions of the zone library by faster ones (difference bound matrices);
without it the same tests agree but sixteen do not finish within two seconds each.
`unit.txt` holds the repository's tests of single functions as Coq goals.
