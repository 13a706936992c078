"""Tests the theorems against wrong programs.

Usage: mutate.py SUGGESTIONS MUTATIONS [id ...]

Copies /verif/rocq to a scratch directory, applies one edit to a model file,
rebuilds, and finds the lemmas whose proofs fail. A failed proof is replaced by
an application of an axiom `BROKEN : forall P : Type, P`, so that the build goes
on. The proofs of examples are left out from the start: they run the program. At the end Print Assumptions tells which theorems of the manifest depend
on a failed proof. One JSON line is appended to /verif/seeded/LOG.jsonl.

SUGGESTIONS is the output of a build with `Set Suggest Proof Using`: the section
variables that each proof uses. MUTATIONS is a Python file with a list
MUTATIONS of dictionaries: id, definition, file, old, new, edit, claim.
"""
import json, os, re, shutil, subprocess, sys

ROCQ = os.environ.get("MUT_BASE", "/verif/rocq")  # a built copy
SCRATCH = os.environ.get("MUT_SCRATCH", "/tmp/mut")
LOG = "/verif/seeded/LOG.jsonl"
LIMIT = 600  # seconds for one file
SENTENCE = 60  # seconds for one sentence

def suggestions(path):
    using, cur, name = {}, None, None
    for line in open(path):
        m = re.match(r"COQC theories/(\S+)\.v", line)
        if m:
            cur, name = m.group(1), None
            continue
        m = re.match(r"The proof of (\S+)", line)
        if m:
            name, buf = m.group(1), None
            continue
        if name is not None:
            if line.startswith("Proof using") and buf is None:
                buf = line.strip()
            elif buf is not None and not buf.endswith("."):
                buf += " " + line.strip()
            else:
                continue
            if buf.endswith("."):
                using[(cur, name)] = buf[len("Proof using"):-1].strip()
                name = None
    return using

START = re.compile(r"^\s*(?:Global |Local |#\[[^\]]*\] )*(Lemma|Theorem|Corollary|Example|Instance|Fact|Remark|Definition)\s+(\S+)")
END = re.compile(r"\b(Qed|Defined)\.")

def enclosing(lines, ln):
    """The statement that encloses line ln (0-based)."""
    i = ln
    while i >= 0 and not START.match(lines[i]):
        i -= 1
    if i < 0:
        return None
    j = i
    while j < len(lines) and not re.search(r"(^|\s)Proof( using[^.]*)?\.", lines[j]):
        j += 1
    if j == len(lines):
        return None
    k = j
    while k < len(lines) and not END.search(lines[k]):
        k += 1
    return i, j, k, START.match(lines[i]).group(2).rstrip(":")

def settle(text, home, examples):
    """Limits the time for each sentence, and leaves out the proofs of examples,
    which are runs of the program."""
    lines, i = text.split("\n"), 0
    while examples and i < len(lines):
        m = START.match(lines[i])
        if m and (m.group(1) == "Example" or m.group(2) == "toy_run"):
            i, j, k, _ = enclosing(lines, i)
            head = lines[j][:re.search(r"Proof", lines[j]).start()]
            lines[j:k + 1] = [head + f"Proof. exact (Verif.{home}.BROKEN _). Qed."]
            i = j
        i += 1
    for i, l in enumerate(lines):
        if l.startswith("Local Open Scope") or START.match(l):
            lines[i] = f"Set Default Timeout {SENTENCE}. " + l
            break
    return "\n".join(lines)

def modules():
    return [l.split("/")[1][:-2] for l in open(f"{ROCQ}/_CoqProject").read().split() if l.startswith("theories/")]

def build():
    r = subprocess.run(["make", "-k", "-j" + os.environ.get("MUT_JOBS", "2"), f"TIMER=timeout {LIMIT}"], cwd=SCRATCH, capture_output=True, text=True)
    return r.returncode, r.stdout + r.stderr

def stuck(f):
    """The line at which coqc does not come to an end within the time limit."""
    p = f"{SCRATCH}/theories/{f}.v"
    with open(f"{SCRATCH}/time.txt", "w") as out:
        subprocess.run(["timeout", str(LIMIT), "coqc", "-time", "-Q", "theories", "Verif", f"theories/{f}.v"],
                       cwd=SCRATCH, stdout=out, stderr=subprocess.STDOUT)
    ends = re.findall(r"^Chars \d+ - (\d+) ", open(f"{SCRATCH}/time.txt").read(), re.M)
    text = open(p, "rb").read()
    at = int(ends[-1]) if ends else 0
    while at < len(text) and text[at:at + 1].isspace():
        at += 1
    return text[:at].count(b"\n") + 1

def run(mut, using):
    shutil.rmtree(SCRATCH, ignore_errors=True)
    subprocess.run(["cp", "-a", ROCQ, SCRATCH], check=True)
    edits = mut.get("edits") or [(mut["file"], mut["old"], mut["new"])]
    for f, old, new in list(edits):  # the same code as programs of memory accesses
        twin = {"Amt.v": "PAmt.v", "Families.v": "PFam.v"}.get(f)
        if twin and not mut.get("single") and open(f"{SCRATCH}/theories/{twin}").read().count(old) == mut.get("count", 1):
            edits.append((twin, old, new))
    for f, old, new in edits:
        p = f"{SCRATCH}/theories/{f}"
        s = open(p).read()
        n = mut.get("count", 1)
        assert s.count(old) == n, (mut["id"], f, s.count(old))
        open(p, "w").write(s.replace(old, new))
    home = edits[0][0][:-2]
    p = f"{SCRATCH}/theories/{home}.v"
    s = open(p).read()
    open(p, "w").write(s + "\nAxiom BROKEN : forall P : Type, P.\n")
    dirty = {f[:-2] for f, _, _ in edits}
    dirty0 = set(dirty)
    for m in modules():
        text = open(f"{SCRATCH}/theories/{m}.v").read()
        deps = {d for l in re.findall(r"From Verif Require (?:Import |Export )?([^.]*)\.", text) for d in l.split()}
        if m in dirty or deps & dirty:
            dirty.add(m)
            if m not in dirty0:
                open(f"{SCRATCH}/theories/{m}.v", "w").write(settle(text, home, m.startswith(("Props_", "Refuted"))))
            for ext in ("vo", "vos", "vok", "glob"):
                if os.path.exists(f"{SCRATCH}/theories/{m}.{ext}"):
                    os.remove(f"{SCRATCH}/theories/{m}.{ext}")
    subprocess.run("coq_makefile -f _CoqProject -o Makefile", shell=True, cwd=SCRATCH, check=True, capture_output=True)
    broken, note = [], ""
    for _ in range(60):
        code, out = build()
        if code == 0:
            break
        errs = []
        for m in re.finditer(r'File "\./theories/(\w+)\.v", line (\d+), characters [^\n]*\nError', out):
            if (m.group(1), int(m.group(2))) not in errs:
                errs.append((m.group(1), int(m.group(2))))
        if not errs:
            errs = [(f, stuck(f)) for f in re.findall(r"theories/(\w+)\.vo\] Error 124", out)]
        if not errs:
            m = re.search(r"theories/(\w+)\.vo\] (Error|Terminated)[^\n]*", out)
            note = "build stopped: " + (m.group(0) if m else out[-300:])
            break
        progress = False
        for f, ln in errs:
            p = f"{SCRATCH}/theories/{f}.v"
            lines = open(p).read().split("\n")
            e = enclosing(lines, ln - 1)
            if e is None:
                continue
            i, j, k, name = e
            if (f, name) in broken:
                continue
            broken.append((f, name))
            m = re.search(r"Proof( using[^.]*)?\.", lines[j])
            u = m.group(1) or ""
            if not u and (f, name) in using:
                u = " using " + using[(f, name)]
            head = lines[j][:m.start()]
            lines[j:k + 1] = [head + "Proof" + u.rstrip() + f". exact (Verif.{home}.BROKEN _). Qed."]
            open(p, "w").write("\n".join(lines))
            progress = True
        if not progress:
            note = f"no progress at {errs}"
            break
    manifest = json.load(open("/verif/MANIFEST.json"))
    thms = sorted({t for c in manifest["claims"] for t in c["theorems"]})
    mods = modules()
    failed, unchecked, unbuilt = [], [], [m for m in mods if not os.path.exists(f"{SCRATCH}/theories/{m}.vo")]
    built = [m for m in mods if m not in unbuilt]
    homes = {}
    for m in mods:
        for line in open(f"{ROCQ}/theories/{m}.v"):
            g = START.match(line)
            if g:
                homes.setdefault(g.group(2).rstrip(":"), m)
    queries = ["", ""]
    for n, t in enumerate(t for t in thms if t in homes):
        m = homes[t]
        if m in unbuilt:
            unchecked.append(t)
        else:
            queries[n % 2] += f'From Verif Require {m}.\nGoal True. idtac "@@{t}". exact I. Qed.\nPrint Assumptions {m}.{t}.\n'
    procs = []
    for n, q in enumerate(queries):
        open(f"{SCRATCH}/Q{n}.v", "w").write(q)
        procs.append(subprocess.Popen(["coqc", "-Q", "theories", "Verif", f"Q{n}.v"], cwd=SCRATCH,
                                      stdout=subprocess.PIPE, text=True))
    for pr in procs:
        out = pr.communicate()[0]
        assert pr.returncode == 0
        for part in out.split("@@")[1:]:
            if "BROKEN" in part:
                failed.append(part.split()[0])
    failed.sort()
    res = {"id": mut["id"], "definition": mut["definition"], "edit": mut["edit"], "claim": mut["claim"],
           "broken_lemmas": [f"{f}.{n}" for f, n in broken], "theorems_failed": failed,
           "tightened": mut.get("tightened", [])}
    if note:
        res["note"] = note
    if unbuilt:
        res["files_not_built"] = unbuilt
        res["theorems_not_checked"] = unchecked
    return res

def main():
    using = suggestions(sys.argv[1])
    env = {}
    exec(open(sys.argv[2]).read(), env)
    muts = {m["id"]: m for m in env["MUTATIONS"]}
    for mut in [muts[i] for i in sys.argv[3:]] or env["MUTATIONS"]:
        res = run(mut, using)
        expect = mut.get("expect", [])
        res["survived"] = [t for t in expect if t not in res["theorems_failed"] + res.get("theorems_not_checked", [])]
        print(json.dumps(res)[:3000], flush=True)
        if not os.environ.get("MUT_DRY"):
            with open(LOG, "a") as f:
                f.write(json.dumps(res) + "\n")

main()
