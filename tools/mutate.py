#!/usr/bin/env python3
"""Mutation testing of the theorems: applies small edits to the model files in a scratch copy of rocq/ and rebuilds.

usage: mutate.py SCRATCH_DIR N SEED [FILE...]      N random edits per model file
Appends one JSON line per edit to SCRATCH_DIR/results.jsonl:
verdict "ill-typed" (the model itself no longer compiles), "killed" (with the first lemmas that fail, and the theorem
files that are not rebuilt) or "survived"."""
import glob, json, os, random, re, shutil, signal, subprocess, sys

ROOT = os.path.dirname(os.path.dirname(os.path.abspath(__file__)))
MODELS = """Base Graph View Misc Automaton Trie PBFS ParBfs GraphDp Nfa Thompson Str ShuntingYard Alg Regexp Search SearchUsers
EditDistance BKTree Heap Dijkstra Prune Revuz Hopcroft Graphviz Ast NodeAut AutCopy Insert HtmlColor""".split()
RULES = [
    (r"<=\?", ["<?"]), (r"(?<!<)<\?(?!\w)", ["<=?"]), (r"(?<![<])=\?", ["<=?"]), (r"&&", ["||"]), (r"\|\|", ["&&"]),
    (r"\bnegb \(", ["("]), (r"\btrue\b", ["false"]), (r"\bfalse\b", ["true"]), (r"\bfst\b", ["snd"]), (r"\bsnd\b", ["fst"]),
    (r"\bS \(", ["("]), (r"\+ 1\b", ["+ 0", "+ 2"]), (r"(?<=[\s(\[])0(?=[\s)\];,])", ["1"]), (r"(?<=[\s(\[])1(?=[\s)\];,])", ["0", "2"]),
    (r"\bNat\.min\b", ["Nat.max"]), (r"\bNat\.max\b", ["Nat.min"]), (r"\bKeyError\b", ["RuntimeError"]),
    (r"\bsunion\b", ["sinter"]), (r"\bsinter\b", ["sunion"]), (r"\bsdiff\b", ["sinter", "sunion"]),
    (r"\bsource\b", ["target"]), (r"\btarget\b", ["source"]), (r"\bif (?=[^|\n]*? then)([^\n]*?) then", [r"if negb (\1) then"]),
    (r"\brev (?=[\w(])", ["(fun x => x) "]), (r"(\b\w+) \+\+ \[([^\]\[]+)\]", [r"[\2] ++ \1"]), (r"\bddel (\w+|\([^()]*\)) (\w+)", [r"\1"]),
    (r"\bdset (\w+|\([^()]*\)) (\w+|\([^()]*\)) (\w+|\([^()]*\))", [r"\1"]), (r"\bsadd (\w+|\([^()]*\)) (\w+|\([^()]*\))", [r"\2"]),
    (r"\bsrem (\w+|\([^()]*\)) (\w+|\([^()]*\))", [r"\2"]), (r"\bfilter (\([^()]*\)|\w+) ", ["(fun x => x) "]),
    (r"\bout_edges\b", ["in_edges"]), (r"(\w+) :: (\w+)\b", [r"\2"]), (r"\bSome (\w+|\([^()]*\))(?= *\n| *\||;|\)| else| end)", ["None"]),
    (r"\bOk tt\b", ["Raise KeyError"]), (r"\bmem (\w+) (\w+)", ["false", "true"]),
    (r'lit "([^"])"', ['lit "@"']), (r'ch "([^"])"', ['ch "@"']), (r"\+(?= )", ["-"]), (r"(?<= )-(?= \w)", ["+"]),
    (r"(?<=[(\s])([a-z]\w*) (\w+) (\w+)(?=[\s)])", [r"\1 \3 \2"]), (r"\[([\w ]+); ([\w ]+)\]", [r"[\1]", r"[\2; \1]"]),
    (r"(\b\w+|\([^()]*\)) \+\+ (\w+|\([^()]*\))", [r"\2 ++ \1", r"\1"]), (r"\bTypeError\b", ["ValueError"]), (r"\bIndexError\b", ["ValueError"]),
    (r"\bmap (\([^()]*\)|\w+) (\w+)\b", [r"map \1 (tl \2)"]), (r"\bflat_map (\([^()]*\)|\w+) (\w+)\b", [r"flat_map \1 (rev \2)"]),
    (r"\blength (\w+)\b", [r"S (length \1)", r"pred (length \1)"]), (r"\bsof (?=[\w(])", ["(fun x => x) "]),
]

def code_spans(text):
    """positions outside comments, inside Definition/Fixpoint/Function bodies"""
    ok = [True] * len(text); depth = 0; i = 0
    while i < len(text):
        if text.startswith("(*", i): depth += 1
        if depth: ok[i] = False
        if text.startswith("*)", i) and depth:
            ok[i + 1] = False; depth -= 1; i += 2; continue
        i += 1
    body = [False] * len(text)
    for m in re.finditer(r"^\s*(Definition|Fixpoint|with)\b.*?\.(?=\s)(?:\s*$)", text, re.M | re.S):
        for k in range(m.start(), m.end()): body[k] = ok[k]
    return body

def candidates(text):
    body = code_spans(text); out = []
    for pat, reps in RULES:
        for m in re.finditer(pat, text):
            if all(body[k] for k in range(m.start(), m.end())):
                for r in reps: out.append((m.start(), m.end(), m.expand(r)))
    return out

def defname(text, pos):
    names = re.findall(r"^\s*(?:Definition|Fixpoint|with)\s+(\w+)", text[:pos + 1], re.M)
    return names[-1] if names else "?"

def lemma_at(path, line):
    lines = open(path).read().split("\n")[:line]
    for l in reversed(lines):
        m = re.match(r"\s*(?:#\[.*?\]\s*)?(?:Theorem|Lemma|Example|Definition|Fixpoint|Instance|Corollary|Fact)\s+(\w+)", l)
        if m: return m.group(1)
    return "?"

def theorems(f):
    return re.findall(r"^\s*Theorem\s+(C\d\d\d?_\w+)", open(f).read(), re.M)

class Scratch:
    def __init__(self, d):
        self.d = d; self.pristine = os.path.join(d, "pristine"); self.work = os.path.join(d, "work")
        os.makedirs(d, exist_ok=True)
    def sync(self):
        shutil.rmtree(self.pristine, ignore_errors=True)
        subprocess.run(["cp", "-a", ROOT + "/rocq", self.pristine], check=True)
        # the tests of the model must not kill the mutants: only the theorems count
        lines = open(self.pristine + "/_CoqProject").read().split("\n")
        open(self.pristine + "/_CoqProject", "w").write("\n".join(l for l in lines if "RepoTests" not in l))
        for t in os.listdir(self.pristine + "/theories"):
            if "RepoTests" in t: os.remove(f"{self.pristine}/theories/{t}")
        subprocess.run(["coq_makefile", "-f", "_CoqProject", "-o", "Makefile"], cwd=self.pristine, check=True, capture_output=True)
        self.reset()
    def reset(self):
        shutil.rmtree(self.work, ignore_errors=True)
        subprocess.run(["cp", "-a", self.pristine, self.work], check=True)
    def build(self, timeout=900):
        p = subprocess.Popen(["make", "-k", "-j3"], cwd=self.work, stdout=subprocess.PIPE, stderr=subprocess.STDOUT, text=True, start_new_session=True)
        try:
            out, _ = p.communicate(timeout=timeout); timed = False
        except subprocess.TimeoutExpired:
            os.killpg(p.pid, signal.SIGKILL); out, _ = p.communicate(); timed = True
        fails = []
        for m in re.finditer(r'File "\./theories/(\w+)\.v", line (\d+), characters [\d-]+:\nError', out):
            fails.append((m.group(1), lemma_at(f"{self.work}/theories/{m.group(1)}.v", int(m.group(2)))))
        return fails, timed
    def missing(self):
        """theorem files whose .vo is missing or older than a source it depends on: those not rebuilt"""
        p = subprocess.run(["make", "-n", "-k"], cwd=self.work, capture_output=True, text=True)
        todo = set(re.findall(r"theories/(\w+)\.vo?\b", "\n".join(l for l in p.stdout.split("\n") if "COQC" in l or "coqc" in l)))
        return sorted(t for t in todo if re.match(r"T[A-Z]", t) and os.path.exists(f"{self.work}/theories/{t}.v") and theorems(f"{self.work}/theories/{t}.v"))

def run(s, f, old_text, new_text):
    p = f"{s.work}/theories/{f}.v"
    open(p, "w").write(new_text)
    fails, timed = s.build()
    if any(x[0] == f for x in fails): v = "ill-typed"
    elif fails or timed: v = "killed"
    else: v = "survived"
    miss = s.missing() if v == "killed" else []
    s.reset()
    return v, fails, timed, miss

def main():
    s = Scratch(sys.argv[1]); n = int(sys.argv[2]); random.seed(int(sys.argv[3]))
    files = sys.argv[4:] or MODELS
    s.sync()
    out = open(os.path.join(s.d, "results.jsonl"), "a")
    for f in files:
        text = open(f"{s.pristine}/theories/{f}.v").read()
        c = candidates(text); random.shuffle(c); done = 0
        for (a, b, r) in c:
            if done >= n: break
            new = text[:a] + r + text[b:]
            if new == text: continue
            v, fails, timed, miss = run(s, f, text, new)
            if v != "ill-typed": done += 1
            line = text.count("\n", 0, a) + 1
            out.write(json.dumps({"file": f, "line": line, "def": defname(text, a), "old": text.split("\n")[line - 1].strip(), "edit": [text[a:b], r],
                                  "verdict": v, "timeout": timed, "fails": fails[:6], "theorem_files": miss}) + "\n"); out.flush()

if __name__ == "__main__":
    main()
