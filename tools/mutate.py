#!/usr/bin/env python3
"""Test the theorems against wrong programs.

usage: mutate.py MUTANTS.json
MUTANTS.json is a list of {"file", "definition", "old", "new", "claim"}: in a scratch copy of rocq/, the
model text `old` in theories/`file`.v is replaced by `new`. The proofs that no longer compile are
admitted one by one, and the theorems whose Print Assumptions then list an admitted lemma (or whose own
proof or Example no longer compiles) are reported as failing. One line per mutant is printed, and
appended to seeded/LOG.jsonl with --log.
"""
import json, os, re, shutil, subprocess, sys
SRC = "/verif/rocq"
TMP = f"/tmp/mut{os.getpid()}"
TIMEOUT = int(os.environ.get("T", "240"))

def files():
    return [l.strip()[len("theories/"):-2] for l in open(f"{SRC}/_CoqProject") if l.strip().endswith(".v")]

def deps(fs):
    d = {}
    for f in fs:
        s = open(f"{SRC}/theories/{f}.v").read()
        got = set()
        for m in re.finditer(r"From Verif Require (?:Import|Export) ([^.]*)\.", s):
            got |= set(m.group(1).split())
        d[f] = got
    return d

def affected(f, fs, d):
    hit = {f}
    for g in fs:
        if d[g] & hit:
            hit.add(g)
    return [g for g in fs if g in hit]

def coqc(f):
    try:
        r = subprocess.run(["coqc", "-time", "-Q", "theories", "Verif", f"theories/{f}.v"], cwd=TMP, capture_output=True, text=True, timeout=TIMEOUT)
        out = re.sub(r"^Chars .*secs.*\n", "", r.stdout, flags=re.M)
        return r.returncode, out, r.stderr
    except subprocess.TimeoutExpired as e:
        last = None
        for m in re.finditer(r"^Chars \d+ - (\d+) ", (e.stdout or b"").decode(), flags=re.M):
            last = int(m.group(1))
        return 124, "", f"TIMEOUT {last or 0}"

ITEM = re.compile(r"^(?:Local |Global |#\[[^\]]*\] *)*(?:Lemma|Theorem|Corollary|Remark|Fact|Example|Instance|Definition|Fixpoint|Program Definition) +([\w']+)", re.M)

def enclosing(src, pos):
    """(name, start of proof, end of proof) of the proof containing pos."""
    for m in re.finditer(r"\bProof\b[^.]*\.", src):
        e = re.compile(r"\b(Qed|Defined|Admitted)\.").search(src, m.end())
        if not e:
            return None
        names = [x for x in ITEM.finditer(src, 0, m.start())]
        begin = names[-1].start() if names else m.start()
        if begin <= pos <= e.end():
            return names[-1].group(1), m.start(), e.end()
    return None

def run(mut, fs, d):
    p = f"{TMP}/theories/{mut['file']}.v"
    src = open(p).read()
    if src.count(mut["old"]) != 1:
        return {"error": f"{src.count(mut['old'])} occurrences"}
    open(p, "w").write(src.replace(mut["old"], mut["new"]))
    failed, notes, theorems = [], [], []
    touched = affected(mut["file"], fs, d)
    for g in touched:
        gp = f"{TMP}/theories/{g}.v"
        for _ in range(400):
            rc, out, err = coqc(g)
            if rc == 0:
                break
            s = open(gp).read()
            m = (re.search(r"line (\d+), characters (\d+)-(\d+):\s*\nError", err)
                 or re.search(r"line (\d+), characters (\d+)-(\d+)", err))
            if rc == 124:
                pos = int(err.split()[1]) + 2
            elif m:
                b = s.encode().split(b"\n")
                pos = len(b"\n".join(b[:int(m.group(1)) - 1])) + 1 + int(m.group(2))
                pos = len(s.encode()[:pos].decode(errors="ignore"))
            else:
                return {"error": f"{g}: {err[-300:]}"}
            enc = enclosing(s, pos)
            if not enc:
                return {"error": f"{g}: not in a proof: {err[-400:]}"}
            name, a, e = enc
            if "Admitted." in s[a:e]:
                return {"error": f"{g}: stuck at {name}: {err[-300:]}"}
            failed.append(f"{g}.{name}")
            s = s[:a] + "Admitted." + s[e:]
            open(gp, "w").write(s)
        if g.endswith("Props"):
            # Print Assumptions output, in order
            s = open(gp).read()
            names = re.findall(r"^Print Assumptions ([\w']+)\.", s, flags=re.M)
            blocks = re.split(r"(?m)^(?=Closed under the global context|Axioms:)", out)[1:]
            for n, blk in zip(names, blocks):
                if blk.startswith("Axioms:"):
                    theorems.append(n)
            theorems += [x.split(".")[1] for x in failed if x.startswith(g + ".") and x.split(".")[1] not in theorems]
    return {"failed_lemmas": failed, "failed_theorems": theorems, "touched": touched}

def main():
    log = "--log" in sys.argv
    path = [a for a in sys.argv[1:] if not a.startswith("--")][0]
    muts = json.load(open(path))
    fs = files(); d = deps(fs)
    shutil.rmtree(TMP, ignore_errors=True)
    shutil.copytree(SRC, TMP)
    shutil.rmtree(TMP + "o", ignore_errors=True)
    shutil.copytree(SRC, TMP + "o")
    for mut in muts:
        r = run(mut, fs, d)
        rec = {"definition": f"{mut['file']}.{mut['definition']}", "edit": mut.get("edit") or f"{mut['old']}  ==>  {mut['new']}", "claim_broken": mut["claim"]}
        if "error" in r:
            print("ERROR", mut["file"], mut["definition"], r["error"], flush=True)
        else:
            rec["theorems_failed"] = r["failed_theorems"]
            rec["lemmas_failed"] = r["failed_lemmas"]
            rec["theorems_tightened"] = mut.get("tightened", [])
            print(("CAUGHT " if r["failed_theorems"] else "MISSED ") + mut["file"] + "." + mut["definition"], "|", mut["claim"], "|", ", ".join(r["failed_theorems"]), "| lemmas:", ", ".join(r["failed_lemmas"][:4]), flush=True)
            if log:
                open("/verif/seeded/LOG.jsonl", "a").write(json.dumps(rec) + "\n")
        # restore
        t = affected(mut["file"], fs, d)
        for g in t:
            for ext in (".v", ".vo", ".vos", ".vok", ".glob"):
                if os.path.exists(f"{TMP}o/theories/{g}{ext}"):
                    shutil.copy2(f"{TMP}o/theories/{g}{ext}", f"{TMP}/theories/{g}{ext}")
try:
    main()
finally:
    shutil.rmtree(TMP, ignore_errors=True)
    shutil.rmtree(TMP + "o", ignore_errors=True)
