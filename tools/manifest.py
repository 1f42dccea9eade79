#!/usr/bin/env python3
"""Writes MANIFEST.json from the table below and checks that every theorem exists."""
import json, re, glob, os
root = os.path.dirname(os.path.dirname(os.path.abspath(__file__)))
P, R = "proved", "partial"
T = {}
def c(i, status, ths, note): T[i] = (status, ths.split(), note)

c("C01", P, "C01_initialize_exact C01_construction_exact", "")
c("C02", R, "C02_refuted C02_fresh_without_controls_partial", "REFUTED: initialize keeps prev_control_, so predict(t) after re-initialising reuses the old control. True for every filter that has never applied a non-empty control.")
c("C03", P, "C03_predict_not_in_future_ignored", "")
c("C04", P, "C04_past_ignored_without_rewind C04_doubles", "")
c("C05", P, "C05_time_monotone C05_doubles_without_rewind C74_grid_partial", "For exact timestamps (integers, or doubles on a dyadic grid), and for all doubles up to 2^1000 with rewinding off; for arbitrary doubles with rewinding on see C74.")
c("C06", R, "C06_refuted C18_queues_in_time_order", "REFUTED with rewinding off and on: processQueues applies queued inputs older than the estimate and the time goes back. With no queued input older than the estimate the time is that of the newest input (C18).")
c("C07", P, "C07_accepted_sets_time", "")
c("C09", P, "C09_late_controls C09_late_controls_doubles", "For exact timestamps, in particular doubles on a dyadic grid; model objects must not carry state between updates (Memoryless).")
c("C10", P, "C10_late_measurements C10_late_measurements_doubles", "Same hypotheses as C09.")
c("C11", R, "C11_refuted C11_late_mixed_partial", "REFUTED: prev_control_ is not rewound, so a measurement replayed before the first replayed control is advanced with a control from its future. True part: equality when every input set is replayed with the same stored control (see theorem).")
c("C12", R, "C12_refuted C12_history_grows_partial", "REFUTED: pruneHistory walks from the newest state and stops at the first one inside the window, so old states are never removed; the partial theorem shows an ordered history never shrinks by pruning.")
c("C13", P, "C13_window_kept C13_prune_keeps_window", "")
c("C14", P, "C14_revert C14_histories_ordered", "")
c("C15", P, "C15_rejected_noop", "")
c("C16", P, "C16_rewind_safe C16_api_safe", "")
c("C17", R, "C17_refuted C17_every_discard_undefined", "REFUTED under the standard's rules: base() of the reverse iterator is the past-the-end iterator and pop_back invalidates it; every rewind or prune that discards a state is undefined (libstdc++ behaves as in C16).")
c("C18", P, "C18_queues_in_time_order", "")
c("C19", R, "C19_refuted C19_merge_partial", "REFUTED for the same reason as C11 (stored control not rewound).")
c("C20", R, "C20_refuted C20_processed_in_order_partial", "REFUTED: with rewinding off, or when rewindHistory fails, queued inputs in the past are applied with negative dt.")
c("C21", P, "C21_queues", "")
c("C22", P, "C22_last_control C22_null_control", "")
c("C23", R, "C23_refuted C23_next_control_partial C23_no_control_partial", "REFUTED: predict(t)/correct after a control restore the covariance that was current when that control was given.")
c("C24", R, "C24_refuted C24_predict_u_partial", "REFUTED: predict(t) shows the predicate an empty vector (input.data instead of the chosen control).")
c("C25", P, "C25_stationary_control C25_stationary_predict_t C25_stationary_measurement", "")
c("C26", P, "C26_future_measurement C26_present_or_past_measurement C26_last_control C26_null_control", "the first two for any state, the last two in terms of the calls made before")
c("C27", R, "C27_refuted C27_no_advance_partial", "REFUTED: dt is computed before the state is advanced; the model is given the full interval although the estimate is already at the measurement's time.")
c("C28", R, "C28_refuted C28_late_ties_partial", "REFUTED: a late input with the timestamp of an applied input is applied before it.")
c("C30", P, "C30_invariant", "")
exec(open(os.path.join(root, "tools", "manifest_more.py")).read()) if os.path.exists(os.path.join(root, "tools", "manifest_more.py")) else None

names = set()
for f in glob.glob(os.path.join(root, "rocq/theories/*.v")):
    for m in re.finditer(r"^\s*(?:Theorem|Lemma|Corollary)\s+([A-Za-z0-9_']+)", open(f).read(), re.M): names.add(m.group(1))
props = [json.loads(l)["id"] for l in open(os.path.join(root, "properties.jsonl"))]
bad = [t for v in T.values() for t in v[1] if t not in names]
assert not bad, bad
claims = [{"property": p, "status": T[p][0], "theorems": T[p][1], "note": T[p][2]} for p in props if p in T]
print("missing:", [p for p in props if p not in T])
assert set(T) <= set(props), set(T) - set(props)
json.dump({"claims": claims}, open(os.path.join(root, "MANIFEST.json"), "w"), indent=1)
