"""Emit a Coq record with one setter per field."""
def gen(name, ctor, params, fields, comment=None, usesT=True):
    out=[]
    out.append(f"  Record {name} := {ctor} {{")
    for i,(f,t,c) in enumerate(fields):
        sep=";" if i+1<len(fields) else ""
        out.append(f"    {f} : {t}{sep}" + (f"   (* {c} *)" if c else ""))
    out.append("  }.")
    for (f,t,c) in fields:
        args=" ".join("v" if g==f else f"({g} r)" for (g,_,_) in fields)
        out.append(f"  Definition set_{f} (v : {t}) (r : {name}) : {name} :=\n    {ctor} {args}.")
    return "\n".join(out)+"\n"
