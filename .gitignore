*.vo
*.vok
*.vos
*.glob
*.aux
.*.aux
.*.cache
*.d
Makefile
Makefile.conf
.Makefile.d
__pycache__/
