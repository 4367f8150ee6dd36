"""Mutation testing of the theorems: edits one definition of the model in a scratch copy, rebuilds everything, records which
statements fail, and runs the edited model on small instances (tools/probe.v.txt) to see whether its behaviour changed.
usage: mutate.py <mutants.json> [first [last]]     one JSON line per attempt is appended to seeded/LOG.jsonl"""
import json, os, re, subprocess, sys, shutil, time
HERE = os.path.dirname(os.path.abspath(__file__)); ROOT = os.path.dirname(HERE)
SCR = os.environ.get("MUT_DIR", "/tmp/mut/rocq"); JOBS = os.environ.get("MUT_JOBS", "3")
def sh(cmd, t=3600):
    try: return subprocess.run(cmd, shell=True, cwd=SCR, capture_output=True, text=True, timeout=t)
    except subprocess.TimeoutExpired as e: return None
def sync():
    os.makedirs(SCR, exist_ok=True)
    subprocess.run(f"rsync -a --delete --exclude '*.vo*' --exclude '*.glob' --exclude '.*.aux' {ROOT}/rocq/ {SCR}/", shell=True, check=True) if shutil.which("rsync") else \
    subprocess.run(f"cd {ROOT}/rocq && for f in _CoqProject theories/*.v; do cmp -s $f {SCR}/$f || (mkdir -p {SCR}/theories && cp $f {SCR}/$f); done", shell=True, check=True)
    for f in os.listdir(SCR + "/theories"):
        if f.endswith(".v") and not os.path.exists(f"{ROOT}/rocq/theories/{f}"): os.remove(f"{SCR}/theories/{f}")
    sh("coq_makefile -f _CoqProject -o Makefile")
def name_at(path, line):
    nm = None
    for i, l in enumerate(open(path), 1):
        if i > line: break
        m = re.match(r"\s*(?:Lemma|Theorem|Example|Corollary|Definition|Fixpoint|Instance|Fact)\s+(\w+)", l)
        if m: nm = m.group(1)
    return nm
def probe():
    shutil.copy(f"{HERE}/probe.v.txt", f"/tmp/probe{os.getpid()}.v")
    r = sh(f"coqc -Q theories Verif /tmp/probe{os.getpid()}.v", 600)
    return None if r is None else (r.stdout if r.returncode == 0 else "ERROR " + r.stderr[-300:])
def main():
    ms = json.load(open(sys.argv[1])); a = int(sys.argv[2]) if len(sys.argv) > 2 else 0; b = int(sys.argv[3]) if len(sys.argv) > 3 else len(ms)
    sync(); r = sh(f"make -j{JOBS}"); assert r.returncode == 0, r.stderr[-2000:]
    base = probe(); assert base and not base.startswith("ERROR"), base
    for m in ms[a:b]:
        path = f"{SCR}/theories/{m['file']}"; src = open(path).read()
        n = src.count(m["old"])
        if n != m.get("count", 1): print("SKIP", m["id"], "occurrences", n); continue
        open(path, "w").write(src.replace(m["old"], m["new"])); t0 = time.time()
        r = sh(f"timeout 1500 make -k -j{JOBS}", 2000)
        out = (r.stdout + r.stderr) if r else ""
        failed = []
        for f, l in re.findall(r'File "\./theories/(\w+)\.v", line (\d+), characters [\d-]+:\nError', out):
            failed.append(f"{f}.{name_at(SCR + '/theories/' + f + '.v', int(l))}")
        vs = [l.strip() for l in open(f"{SCR}/_CoqProject") if l.strip().endswith(".v")]
        notbuilt = [os.path.basename(v)[:-2] for v in vs if not os.path.exists(f"{SCR}/{v}o") or os.path.getmtime(f"{SCR}/{v}o") < os.path.getmtime(path) and not sh(f"make -q {v}o", 60).returncode == 0]
        # run the edited definitions: only the model files are needed
        p = None
        if m.get("probe", True):
            sh(f"make -j{JOBS} theories/Mgrit.vo theories/SimpleSetup.vo theories/NetExec.vo", 600)
            p = probe()
        beh = None if p is None else ("unchanged on the probe instances" if p == base else ("probe does not run" if p.startswith("ERROR") else "changed on the probe instances"))
        entry = {"id": m["id"], "definition": f"{m['file']}: {m['definition']}", "edit": m["edit"], "claim": m["claim"], "failed": sorted(set(failed)),
                 "not_built": notbuilt, "behaviour": beh, "verdict": "caught" if failed else "survived", "tightened": m.get("tightened", []), "seconds": round(time.time() - t0)}
        open(f"{ROOT}/seeded/LOG.jsonl", "a").write(json.dumps(entry) + "\n"); print(m["id"], entry["verdict"], failed, beh, entry["seconds"], flush=True)
        open(path, "w").write(src)
main()
