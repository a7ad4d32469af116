"""Regenerate the axiom table of DESIGN.md from Print Assumptions (needs a built tree).

Usage: python3 tools/gen_axioms.py            run coqc and update DESIGN.md
       python3 tools/gen_axioms.py out.txt    use the saved output of an earlier run
"""
import glob, json, os, re, subprocess, sys, tempfile

ROOT = os.path.dirname(os.path.dirname(os.path.abspath(__file__)))
TH = os.path.join(ROOT, "rocq", "theories")
SHORT = {
    "ClassicalDedekindReals.sig_forall_dec": "D",
    "ClassicalDedekindReals.sig_not_dec": "N",
    "FunctionalExtensionality.functional_extensionality_dep": "F",
    "Classical_Prop.classic": "C",
}


def run():
    claims = json.load(open(os.path.join(ROOT, "MANIFEST.json")))["claims"]
    names = [t.split(".")[-1] for c in claims for t in c["theorems"]]
    mod = {}
    for f in glob.glob(os.path.join(TH, "Prop*.v")):
        for l in open(f):
            r = re.match(r"\s*(?:Theorem|Lemma|Corollary)\s+(C\d\d_\w+)", l)
            if r:
                mod[r.group(1)] = os.path.basename(f)[:-2]
    s = "From Verif Require " + " ".join(sorted(set(mod.values()))) + ".\n"
    for n in names:
        s += f'Goal True. idtac "@@{n}". Abort.\nPrint Assumptions {mod[n]}.{n}.\n'
    with tempfile.TemporaryDirectory() as d:
        p = os.path.join(d, "ax.v")
        open(p, "w").write(s)
        return subprocess.run(["coqc", "-Q", TH, "Verif", p], capture_output=True, text=True, check=True).stdout


def main():
    out = open(sys.argv[1]).read() if len(sys.argv) > 1 else run()
    groups = {}
    for part in out.split("@@")[1:]:
        name, _, rest = part.partition("\n")
        axs = re.findall(r"^([A-Za-z_]\w*(?:\.\w+)+)\s*(?::|$)", rest, re.M)
        bad = [a for a in axs if a not in SHORT]
        assert not bad, (name, bad)
        assert axs or "Closed under the global context" in rest, name
        key = "".join(k for k in "DNFC" if k in [SHORT[a] for a in axs]) or "none"
        groups.setdefault(key, []).append(name)
    lines = ["| axioms | theorems |", "|--------|----------|"]
    for k in sorted(groups, key=lambda k: (k != "none", len(k), k)):
        lines.append(f"| {', '.join(k) if k != 'none' else 'none'} | {', '.join(sorted(groups[k]))} |")
    p = os.path.join(ROOT, "DESIGN.md")
    t = open(p).read()
    a, b = "<!-- axioms:begin -->", "<!-- axioms:end -->"
    i, j = t.index(a) + len(a), t.index(b)
    open(p, "w").write(t[:i] + "\n" + "\n".join(lines) + "\n" + t[j:])
    print({k: len(v) for k, v in groups.items()})


main()
