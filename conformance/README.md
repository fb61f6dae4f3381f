# Comparison of the model with the project's own test data

`/repo/tests/fixtures/*.json` records, for concrete inputs, the values the real
library returned.  The scripts here evaluate the Rocq model on the same inputs
(`vm_compute`, exact rationals) and compare the results with the recorded
numbers (relative tolerance 1e-5, 2e-5 for long products).  The library itself is
not run.  This is a check that the model is the right one.  It proves nothing
and no theorem depends on it.

Run, after building `rocq/`: `python3 props_c.py`, `meas_c.py`, `other_c.py`, `valid_c.py`, `assess_c.py`.

| script | fixtures | compared | differ |
|---|---|---|---|
| `props_c.py` | fixtures_properties (30 chains, 18 properties each) | 540 | 0 |
| `meas_c.py` | fixtures_measures (10 chains) | 286 | 0 |
| `other_c.py` | classification, lumping, generators, fitting, simulations, HMM | 373 | 2 |
| `valid_c.py` | fixtures_validation | 335 | 0 |
| `assess_c.py` | fixtures_assessments (5 tests, 10 cases each) | 50 | 0 |

The two differences come from rounding, which the model leaves out:

* lumping partitions of `[[0,.3,.7],[.1,.5,.4],[.1,.2,.7]]`: the chain is lumpable over
  `{0},{1,2}` and the model says so.  The library compares doubles with `==`, and
  `0.5+0.4 != 0.2+0.7` there, so it reports no partition.
* one Viterbi prediction whose last maximum is an exact tie.  The doubles differ in the last
  bit and another of the two optimal paths is returned.

Not compared: eigendecomposition cases of the time measures (34), cases with
randomness or an external solver (27), and the validators of objects that are not in the
model's value universe (files, graphs, chain objects, functions; 198).

`norm` adds the rounding of the printed decimals (rows that sum to 1 only to
1e-8) to the largest entry of the row, since the model's inputs are the numbers as printed.
