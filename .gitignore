*.vo
*.vok
*.vos
*.glob
*.aux
.lia.cache
.nia.cache
.Makefile.d
.Makefile.coq.d
Makefile
Makefile.conf
