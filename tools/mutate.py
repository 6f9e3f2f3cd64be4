# Seeded-bug harness.  usage: mutate.py specfile.json
# spec: list of {file, definition, edit, claim, old, new, expect(optional list of files)}
# Copies rocq/ to a scratch directory, applies the edit, rebuilds with make -k and
# reports, for each error, the enclosing theorem; appends one line per edit to seeded/LOG.jsonl
import json, sys, os, subprocess, re, shutil
ROOT = os.path.join(os.path.dirname(os.path.abspath(__file__)), "..")
SCR = "/tmp/mutwork/rocq"
def enclosing(path, line):
    name = "?"
    for i, l in enumerate(open(path)):
        if i + 1 > line: break
        m = re.match(r"\s*(?:Local\s+)?(Theorem|Lemma|Corollary|Example|Definition|Fixpoint|Remark|Fact)\s+([\w']+)", l)
        if m: name = m.group(2)
    return name
def affected():
    # manifest theorems that (transitively) rest on a lemma whose proof broke
    mods = re.findall(r"theories/(\w+)\.v", open(SCR + "/_CoqProject").read())
    ths = [t for c in json.load(open(ROOT + "/MANIFEST.json"))["claims"] for t in c["theorems"]]
    out = []
    where = {}
    for m in mods:
        for t in re.findall(r"(?:Theorem|Lemma|Corollary)\s+([\w']+)", open(SCR + "/theories/" + m + ".v").read()): where[t] = m
    byfile = {}
    for t in ths: byfile.setdefault(where.get(t), []).append(t)
    for m, ts in byfile.items():
        if m is None: continue  # in a file outside the rebuilt ones ("only")
        if not os.path.exists(SCR + "/theories/" + m + ".vo"): out += ts; continue
        if os.path.exists("/tmp/mutbase/theories/" + m + ".vo") and os.path.getmtime("/tmp/mutbase/theories/" + m + ".vo") == os.path.getmtime(SCR + "/theories/" + m + ".vo"): continue  # not rebuilt
        src = "Require Import Verif.%s.\n" % m + "".join('Fail Fail Check %s.\nPrint Assumptions %s.\n' % (t, t) for t in ts)
        open("/tmp/mutwork/chk.v", "w").write(src)
        r = subprocess.run(["timeout", "300", "coqc", "-Q", SCR + "/theories", "Verif", "/tmp/mutwork/chk.v"], capture_output=True, text=True)
        parts = re.split(r"(?=Closed under the global context|Axioms:)", r.stdout)[1:]
        if len(parts) != len(ts): out.append("?" + m)
        for t, q in zip(ts, parts):
            if not q.startswith("Closed"): out.append(t)
    return out
def main():
    # snapshot of the current build, so that later edits in /verif do not disturb the run
    os.makedirs("/tmp/mutwork", exist_ok=True)
    shutil.rmtree("/tmp/mutbase", ignore_errors=True); subprocess.run(["cp", "-a", ROOT + "/rocq", "/tmp/mutbase"], check=True)
    spec = json.load(open(sys.argv[1]))
    for s in spec:
        shutil.rmtree(SCR, ignore_errors=True); subprocess.run(["cp", "-a", "/tmp/mutbase", SCR], check=True)
        # the files to rebuild: not Audit.v; with "only", those whose name matches it
        L = [l for l in open(SCR + "/_CoqProject").read().split("\n") if "Audit" not in l and (not l.startswith("theories/") or re.match(s.get("only", ""), l[9:]))]
        open(SCR + "/_CoqProject", "w").write("\n".join(L))
        f = SCR + "/theories/" + s["file"]
        t = open(f).read()
        if t.count(s["old"]) < 1:
            print("NOT FOUND", s["definition"], s["old"]); continue
        if t.count(s["old"]) > 1 and not s.get("nth") is not None:
            print("AMBIGUOUS", t.count(s["old"]), s["definition"], s["old"]); continue
        if s.get("nth") is not None:
            parts = t.split(s["old"]); n = s["nth"]
            t = s["old"].join(parts[:n+1]) + s["new"] + s["old"].join(parts[n+1:])
        else: t = t.replace(s["old"], s["new"])
        open(f, "w").write(t)
        # in proofs files: replace failing lemma by Admitted to see further failures (iterate)
        failed = []
        for it in range(40):
            r = subprocess.run("coq_makefile -f _CoqProject -o Makefile >/dev/null && timeout 1200 make -k -j2 2>&1", shell=True, cwd=SCR, capture_output=True, text=True)
            errs = re.findall(r'File "\./(theories/[\w]+\.v)", line (\d+), characters [\d-]+:\nError', r.stdout)
            errs = [e for e in errs]
            if not errs:
                if r.returncode != 0 and "Error" in r.stdout: failed.append("BUILD?" )
                break
            changed = False
            for (p, ln) in set(errs):
                nm = enclosing(SCR + "/" + p, int(ln)); failed.append(nm)
                # admit the lemma
                txt = open(SCR + "/" + p).read().split("\n")
                # find start line of the statement
                st = None
                for i in range(int(ln) - 1, -1, -1):
                    if re.match(r"\s*(?:Local\s+)?(Theorem|Lemma|Corollary|Example|Remark|Fact)\s+" + re.escape(nm) + r"\b", txt[i]): st = i; break
                if st is None: continue
                pr = None
                for i in range(st, len(txt)):
                    if re.match(r"\s*Proof", txt[i]): pr = i; break
                    if i > st and re.match(r"\s*(Theorem|Lemma|Definition)", txt[i]): break
                    m = re.search(r"\.\s+Proof\.", txt[i])
                    if m: pr = i; break
                en = None
                if pr is None: continue
                for i in range(pr, len(txt)):
                    if re.search(r"(Qed|Defined)\.\s*$", txt[i]): en = i; break
                if en is None: continue
                head = txt[pr].split("Proof")[0]
                txt[pr:en+1] = [head + " Admitted."] + [""] * (en - pr)
                open(SCR + "/" + p, "w").write("\n".join(txt)); changed = True
            if not changed: break
        failed = list(dict.fromkeys(failed))
        props = affected() if failed else []
        print("==", s["definition"], "|", s["edit"], "->", (failed, props) if failed else "SURVIVED")
        log = dict(definition=s["definition"], edit=s["edit"], claim_broken=s["claim"], theorems_failed=props, lemmas_failed=failed, theorems_tightened=s.get("tightened", []))
        if failed or s.get("log"):
            with open(ROOT + "/seeded/LOG.jsonl", "a") as g: g.write(json.dumps(log) + "\n")
        sys.stdout.flush()
main()
